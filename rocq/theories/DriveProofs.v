(** Proofs for C149-C152: the least squares problems. *)
From Coq Require Import Reals ZArith List Bool Arith Lia Lra Psatz.
From Verif Require Import Base ListUtil Loop SensorModel OdometryModel SensorProofs OdometryProofs DriveModel DriveSpec.
Import ListNotations.
Local Open Scope R_scope.

(** ** NormalizeAngle *)
Lemma normalize_range : forall a, - PI <= normalize_angle a < PI.
Proof.
  intro a. unfold normalize_angle. pose proof PI_RGT_0 as HP.
  destruct (base_Int_part ((a + PI) / (2 * PI))) as [H1 H2]. set (k := IZR (Int_part ((a + PI) / (2 * PI)))) in *.
  assert (E : (a + PI) / (2 * PI) * (2 * PI) = a + PI) by (field; lra).
  split; nra.
Qed.
Lemma normalize_turns : forall a, same_direction (normalize_angle a) a.
Proof.
  intro a. exists (- Int_part ((a + PI) / (2 * PI)))%Z. unfold normalize_angle. rewrite opp_IZR. ring.
Qed.
Lemma turns_unique : forall a b, - PI <= a < PI -> - PI <= b < PI -> same_direction a b -> a = b.
Proof.
  intros a b Ha Hb [k E]. pose proof PI_RGT_0 as HP.
  assert (Hk : k = 0%Z).
  { assert (H1 : (-1 < k)%Z) by (apply lt_IZR; nra).
    assert (H2 : (k < 1)%Z) by (apply lt_IZR; nra). lia. }
  subst k. simpl in E. lra.
Qed.
Lemma sd_sym : forall a b, same_direction a b -> same_direction b a.
Proof. intros a b [k E]. exists (- k)%Z. rewrite opp_IZR. lra. Qed.
Lemma sd_trans : forall a b c, same_direction a b -> same_direction b c -> same_direction a c.
Proof. intros a b c [k E] [j F]. exists (k + j)%Z. rewrite plus_IZR. lra. Qed.
Lemma normalize_exact : forall a b, - PI <= b < PI -> same_direction b a -> normalize_angle a = b.
Proof.
  intros a b Hb Hs. apply turns_unique; [apply normalize_range|exact Hb|].
  apply sd_trans with a; [apply normalize_turns|apply sd_sym; exact Hs].
Qed.
Lemma normalize_same : forall a b, same_direction a b <-> normalize_angle a = normalize_angle b.
Proof.
  intros a b. split.
  - intro H. apply normalize_exact; [apply normalize_range|]. apply sd_trans with b; [apply normalize_turns|apply sd_sym; exact H].
  - intro H. apply sd_trans with (normalize_angle a); [apply sd_sym; apply normalize_turns|]. rewrite H. apply normalize_turns.
Qed.
Lemma normalize_zero : forall a, normalize_angle a = 0 <-> same_direction a 0.
Proof.
  intro a. rewrite normalize_same. pose proof PI_RGT_0. rewrite (normalize_exact 0 0); [reflexivity|lra|]. exists 0%Z. simpl. ring.
Qed.

(** ** Residuals *)
Lemma isd : forall v, 0 < v -> 1 / sqrt v <> 0 /\ forall x, 1 / sqrt v * x * (1 / sqrt v * x) = x * x / v.
Proof.
  intros v H. pose proof (sqrt_lt_R0 v H) as Hs. split.
  - unfold Rdiv. rewrite Rmult_1_l. apply Rinv_neq_0_compat. lra.
  - intro x. replace (1 / sqrt v * x * (1 / sqrt v * x)) with (x * x / (sqrt v * sqrt v)) by (field; lra). rewrite sqrt_sqrt by lra. reflexivity.
Qed.

Notation pose_term := (pose_error normalize_angle).
Notation obs_term := (obs_error normalize_angle).
Lemma sq3_term : forall vx vy vt u a b, 0 < vx -> 0 < vy -> 0 < vt -> sq3 (pose_residual vx vy vt u a b) = pose_term vx vy vt u a b.
Proof.
  intros vx vy vt u a b Hx Hy Ht. unfold sq3, pose_residual, pose_error, mapp, tr, rotation, mx_of, vec_of, dot. cbn [nth].
  destruct (isd vx Hx) as [_ Ex]. destruct (isd vy Hy) as [_ Ey]. destruct (isd vt Ht) as [_ Et].
  rewrite Ex, Ey, Et. replace (p_t b - p_t a - o_t u) with (p_t b - (p_t a + o_t u)) by ring.
  f_equal; [f_equal|]; field; lra.
Qed.
Lemma sq2_term : forall vr vb z p l, 0 < vr -> 0 < vb -> sq2 (obs_residual vr vb z p l) = obs_term vr vb z p l.
Proof.
  intros vr vb z p l Hr Hb. unfold sq2, obs_residual, obs_error. cbn [fst snd].
  destruct (isd vr Hr) as [_ Er]. destruct (isd vb Hb) as [_ Eb].
  rewrite Er, Eb. replace (atan2 (snd l - p_y p) (fst l - p_x p) - p_t p - snd z) with (atan2 (snd l - p_y p) (fst l - p_x p) - (p_t p + snd z)) by ring.
  replace ((p_x p - fst l) * (p_x p - fst l) + (p_y p - snd l) * (p_y p - snd l)) with ((fst l - p_x p) ^ 2 + (snd l - p_y p) ^ 2) by ring.
  f_equal; field; lra.
Qed.

Lemma sq_div : forall x v, 0 < v -> 0 <= x ^ 2 / v /\ (x ^ 2 / v = 0 <-> x = 0).
Proof.
  intros x v H. pose proof (Rinv_0_lt_compat v H). pose proof (pow2_ge_0 x). split.
  - unfold Rdiv. apply Rmult_le_pos; lra.
  - split; [|intros ->; field; lra]. intro E. apply Rmult_integral in E. destruct E as [E|E]; [|lra].
    replace (x ^ 2) with (x * x) in E by ring. apply Rmult_integral in E. tauto.
Qed.

Lemma cs2 : forall t, cos t ^ 2 + sin t ^ 2 = 1.
Proof. intro t. rewrite <- (cs1 t). ring. Qed.

Lemma pose_term_zero : forall vx vy vt u a b, 0 < vx -> 0 < vy -> 0 < vt ->
  0 <= pose_term vx vy vt u a b /\ (pose_term vx vy vt u a b = 0 <-> moved_by u a b).
Proof.
  intros vx vy vt u a b Hx Hy Ht. unfold pose_error. set (dx := p_x b - p_x a). set (dy := p_y b - p_y a).
  set (e1 := cos (p_t a) * dx + sin (p_t a) * dy - o_x u). set (e2 := - sin (p_t a) * dx + cos (p_t a) * dy - o_y u).
  set (e3 := normalize_angle (p_t b - (p_t a + o_t u))).
  destruct (sq_div e1 vx Hx) as [P1 Q1]. destruct (sq_div e2 vy Hy) as [P2 Q2]. destruct (sq_div e3 vt Ht) as [P3 Q3].
  split; [lra|]. assert (E3 : e3 = 0 <-> same_direction (p_t b) (p_t a + o_t u)).
  { unfold e3. rewrite normalize_zero. split; intros [k E]; exists k; lra. }
  pose proof (cs2 (p_t a)) as C. unfold moved_by. split.
  - intro E. assert (A1 : e1 = 0) by (apply Q1; lra). assert (A2 : e2 = 0) by (apply Q2; lra). assert (A3 : e3 = 0) by (apply Q3; lra).
    split; [|split; [|apply E3; exact A3]].
    + assert (dx = (cos (p_t a) ^ 2 + sin (p_t a) ^ 2) * dx) as F by (rewrite C; ring).
      assert (cos (p_t a) * (e1 + o_x u) - sin (p_t a) * (e2 + o_y u) = (cos (p_t a) ^ 2 + sin (p_t a) ^ 2) * dx) as G by (unfold e1, e2; ring).
      rewrite A1, A2 in G. unfold dx in *. lra.
    + assert (dy = (cos (p_t a) ^ 2 + sin (p_t a) ^ 2) * dy) as F by (rewrite C; ring).
      assert (sin (p_t a) * (e1 + o_x u) + cos (p_t a) * (e2 + o_y u) = (cos (p_t a) ^ 2 + sin (p_t a) ^ 2) * dy) as G by (unfold e1, e2; ring).
      rewrite A1, A2 in G. unfold dy in *. lra.
  - intros (A1 & A2 & A3). apply E3 in A3. 
    assert (B1 : e1 = 0).
    { unfold e1, dx, dy. rewrite A1, A2. transitivity ((cos (p_t a) ^ 2 + sin (p_t a) ^ 2 - 1) * o_x u); [ring|]. rewrite C. ring. }
    assert (B2 : e2 = 0).
    { unfold e2, dx, dy. rewrite A1, A2. transitivity ((cos (p_t a) ^ 2 + sin (p_t a) ^ 2 - 1) * o_y u); [ring|]. rewrite C. ring. }
    apply Q1 in B1. apply Q2 in B2. apply Q3 in A3. lra.
Qed.

Lemma obs_term_zero : forall vr vb z p l, 0 < vr -> 0 < vb -> 0 < fst z ->
  0 <= obs_term vr vb z p l /\ (obs_term vr vb z p l = 0 <-> located z p l).
Proof.
  intros vr vb z p l Hr Hb Hz. unfold obs_error. set (dx := fst l - p_x p). set (dy := snd l - p_y p).
  set (e1 := sqrt (dx ^ 2 + dy ^ 2) - fst z). set (e2 := normalize_angle (atan2 dy dx - (p_t p + snd z))).
  destruct (sq_div e1 vr Hr) as [P1 Q1]. destruct (sq_div e2 vb Hb) as [P2 Q2]. split; [lra|].
  assert (E2 : e2 = 0 <-> same_direction (atan2 dy dx) (p_t p + snd z)).
  { unfold e2. rewrite normalize_zero. split; intros [k E]; exists k; lra. }
  unfold located. split.
  - intro E. assert (A1 : e1 = 0) by (apply Q1; lra). assert (A2 : e2 = 0) by (apply Q2; lra). apply E2 in A2. destruct A2 as [k A2].
    assert (S0 : sqrt (dx ^ 2 + dy ^ 2) = fst z) by (unfold e1 in A1; lra).
    assert (D0 : 0 < dx ^ 2 + dy ^ 2).
    { apply Rnot_le_lt. intro H. rewrite sqrt_neg_0 in S0 by exact H. lra. }
    destruct (atan2_spec dy dx D0) as (C1 & C2 & _). rewrite S0, A2, cos_turns in C1. rewrite S0, A2, sin_turns in C2.
    unfold dx, dy in *. lra.
  - intros [A1 A2]. pose proof (cs2 (p_t p + snd z)) as C.
    assert (Dx : dx = fst z * cos (p_t p + snd z)) by (unfold dx; lra). assert (Dy : dy = fst z * sin (p_t p + snd z)) by (unfold dy; lra).
    assert (S2 : dx ^ 2 + dy ^ 2 = fst z * fst z).
    { rewrite Dx, Dy. transitivity (fst z * fst z * (cos (p_t p + snd z) ^ 2 + sin (p_t p + snd z) ^ 2)); [ring|]. rewrite C. ring. }
    assert (S0 : sqrt (dx ^ 2 + dy ^ 2) = fst z) by (rewrite S2; apply sqrt_square; lra).
    assert (D0 : 0 < dx ^ 2 + dy ^ 2) by (rewrite S2; nra).
    destruct (atan2_spec dy dx D0) as (C1 & C2 & _). rewrite S0 in C1, C2.
    assert (B2 : e2 = 0).
    { apply E2. apply same_angle; apply (Rmult_eq_reg_l (fst z)); try lra. }
    assert (B1 : e1 = 0) by (unfold e1; lra). apply Q1 in B1. apply Q2 in B2. lra.
Qed.

(** ** Reading the parameters *)
Lemma rd_app_l : forall (A : Type) (a b : list A) i, (i < length a)%nat -> rd (a ++ b) i = rd a i.
Proof. intros A a b i H. unfold rd. rewrite nth_error_app1 by exact H. reflexivity. Qed.
Lemma rd_app_r : forall (A : Type) (a b : list A) i, rd (a ++ b) (length a + i) = rd b i.
Proof. intros A a b i. unfold rd. rewrite nth_error_app2 by lia. do 2 f_equal. lia. Qed.

Lemma concat3 : forall ps, length (concat (map pose_comps ps)) = (length ps * 3)%nat.
Proof. induction ps as [|p r IH]; [reflexivity|]. cbn [map concat length]. rewrite app_length, IH. cbn. lia. Qed.
Lemma rd_cons : forall (A : Type) (x : A) a i, rd (x :: a) (S i) = rd a i.
Proof. reflexivity. Qed.
Lemma pose_at_spec : forall ps t i p, nth_error ps i = Some p -> pose_at (concat (map pose_comps ps) ++ t) (i * 3) = Val p.
Proof.
  induction ps as [|q r IH]; intros t i p H; [destruct i; discriminate|].
  destruct i as [|i]; cbn [nth_error] in H.
  - injection H as ->. destruct p. reflexivity.
  - cbn [map concat]. rewrite <- app_assoc. specialize (IH t i p H). unfold pose_at in *. cbn [pose_comps app].
    replace (S i * 3)%nat with (S (S (S (i * 3)))) by lia.
    rewrite !Nat.add_succ_l, !rd_cons. exact IH.
Qed.
Lemma lmk_at_spec : forall ls i l, nth_error ls i = Some l -> lmk_at (concat (map point_comps ls)) (i * 2) = Val l.
Proof.
  induction ls as [|q r IH]; intros i l H; [destruct i; discriminate|].
  destruct i as [|i]; cbn [nth_error] in H.
  - injection H as ->. destruct l. reflexivity.
  - cbn [map concat]. specialize (IH i l H). unfold lmk_at in *. cbn [point_comps app].
    replace (S i * 2)%nat with (S (S (i * 2))) by lia.
    rewrite !Nat.add_succ_l, !rd_cons. exact IH.
Qed.
Lemma lmk_params : forall ps ls i l, nth_error ls i = Some l -> lmk_at (params_2d ps ls) (length ps * 3 + i * 2) = Val l.
Proof.
  intros ps ls i l H. unfold params_2d, lmk_at. rewrite <- (concat3 ps), <- Nat.add_assoc, !rd_app_r.
  exact (lmk_at_spec ls i l H).
Qed.

(** ** The objective in the plane *)
Lemma skipn_cons : forall (A : Type) (l : list A) i x r, skipn i l = x :: r -> nth_error l i = Some x /\ skipn (S i) l = r.
Proof.
  induction l as [|a l IH]; intros i x r H; [destruct i; discriminate|]. destruct i as [|i]; cbn [skipn nth_error] in *.
  - injection H as -> ->. split; reflexivity.
  - apply IH. exact H.
Qed.

Lemma odo_cost_spec : forall vx vy vt ps t odo i, 0 < vx -> 0 < vy -> 0 < vt -> length (skipn i ps) = S (length odo) ->
  odo_cost vx vy vt (concat (map pose_comps ps) ++ t) i odo = Val (chain_sum (pose_term vx vy vt) (skipn i ps) odo).
Proof.
  intros vx vy vt ps t odo i Hx Hy Ht. revert i. induction odo as [|u r IH]; intros i H.
  - cbn [odo_cost]. destruct (skipn i ps) as [|a [|b l]]; reflexivity.
  - destruct (skipn i ps) as [|a l] eqn:E; [discriminate|]. destruct l as [|b l]; [discriminate|].
    destruct (skipn_cons _ _ _ _ _ E) as [Ea E']. destruct (skipn_cons _ _ _ _ _ E') as [Eb _].
    cbn [odo_cost]. rewrite (pose_at_spec ps t i a Ea). cbn [obind].
    replace (i + 1)%nat with (S i) by lia. rewrite (pose_at_spec ps t (S i) b Eb). cbn [obind].
    rewrite IH by (rewrite E'; cbn in *; lia). cbn [obind]. rewrite sq3_term by assumption. rewrite E'. reflexivity.
Qed.

Lemma scan_sum_cons : forall (X Y W : Type) (f : W -> X -> Y -> R) x ls z da s, scan_sum f x ls ((z, da) :: s) =
  match (if Z.ltb da 0 then None else nth_error ls (Z.to_nat da)) with Some l => f z x l + scan_sum f x ls s | None => scan_sum f x ls s end.
Proof. reflexivity. Qed.
Lemma scan_cost_spec : forall vr vb ps ls k p s, 0 < vr -> 0 < vb -> nth_error ps k = Some p ->
  (forall z da, In (z, da) s -> (da < Z.of_nat (length ls))%Z) ->
  scan_cost vr vb (length ps) (params_2d ps ls) k s = Val (scan_sum (obs_term vr vb) p ls s).
Proof.
  intros vr vb ps ls k p s Hr Hb Hp. induction s as [|[z da] r IH]; intro H; [reflexivity|].
  cbn [scan_cost]. rewrite IH by (intros z' d' I; apply (H z' d'); right; exact I). cbn [obind].
  rewrite scan_sum_cons.
  destruct (Z.ltb_spec da 0) as [Hd|Hd]; [reflexivity|].
  unfold params_2d at 1. rewrite (pose_at_spec ps _ k p Hp). cbn [obind].
  assert (B : (Z.to_nat da < length ls)%nat) by (specialize (H z da (or_introl eq_refl)); lia).
  destruct (nth_error ls (Z.to_nat da)) as [l|] eqn:El; [|apply nth_error_None in El; lia].
  rewrite (lmk_params ps ls _ l El). cbn [obind]. rewrite sq2_term by assumption. reflexivity.
Qed.
Lemma scans_cost_spec : forall vr vb ps ls ss k, 0 < vr -> 0 < vb -> (length ss <= length (skipn k ps))%nat ->
  assoc_within (length ls) ss ->
  scans_cost vr vb (length ps) (params_2d ps ls) k ss = Val (scans_sum (obs_term vr vb) (skipn k ps) ls ss).
Proof.
  intros vr vb ps ls ss k Hr Hb. revert k. induction ss as [|s r IH]; intros k H A.
  - cbn [scans_cost]. destruct (skipn k ps); reflexivity.
  - destruct (skipn k ps) as [|p l] eqn:E; [cbn in H; lia|]. destruct (skipn_cons _ _ _ _ _ E) as [Ep E'].
    cbn [scans_cost]. rewrite (scan_cost_spec vr vb ps ls k p s Hr Hb Ep) by (intros z da I; apply (A s z da); [left; reflexivity|exact I]).
    cbn [obind]. rewrite IH; [|rewrite E'; cbn in H; lia|intros s' z da I; apply A; right; exact I]. cbn [obind]. rewrite E'. reflexivity.
Qed.

Lemma cost_2d_spec : forall vx vy vt vr vb ps ls odo ss, 0 < vx -> 0 < vy -> 0 < vt -> 0 < vr -> 0 < vb ->
  length ps = S (length odo) -> (length ss <= length ps)%nat -> assoc_within (length ls) ss ->
  cost_2d vx vy vt vr vb (params_2d ps ls) odo ss =
  Val (1 / 2 * (chain_sum (pose_term vx vy vt) ps odo + scans_sum (obs_term vr vb) ps ls ss)).
Proof.
  intros vx vy vt vr vb ps ls odo ss H1 H2 H3 H4 H5 HL HS HA. unfold cost_2d.
  unfold params_2d at 1. rewrite (odo_cost_spec vx vy vt ps _ odo 0 H1 H2 H3 HL). cbn [obind].
  rewrite <- HL. rewrite (scans_cost_spec vr vb ps ls ss 0 H4 H5 HS HA). reflexivity.
Qed.

Lemma chain_zero : forall (X U : Type) (f : U -> X -> X -> R) (Q : U -> X -> X -> Prop) xs us,
  (forall u x y, 0 <= f u x y /\ (f u x y = 0 <-> Q u x y)) -> length xs = S (length us) ->
  0 <= chain_sum f xs us /\ (chain_sum f xs us = 0 <->
    forall i u x y, nth_error us i = Some u -> nth_error xs i = Some x -> nth_error xs (S i) = Some y -> Q u x y).
Proof.
  intros X U f Q xs us H. revert xs. induction us as [|u us IH]; intros xs L.
  - destruct xs as [|x [|y r]]; try discriminate. cbn. split; [lra|]. split; [intros _ [|i]; discriminate|reflexivity].
  - destruct xs as [|x [|y r]]; try discriminate. destruct (IH (y :: r)) as [P E]; [cbn in *; lia|].
    cbn [chain_sum tl]. destruct (H u x y) as [P1 E1]. split; [lra|]. split.
    + intro Z0. assert (A1 : f u x y = 0) by lra. assert (A2 : chain_sum f (y :: r) us = 0) by lra.
      rewrite E1 in A1. rewrite E in A2. intros [|i] u' x' y' U1 X1 Y1.
      * cbn in U1, X1, Y1. injection U1 as <-. injection X1 as <-. injection Y1 as <-. exact A1.
      * exact (A2 i u' x' y' U1 X1 Y1).
    + intro A. assert (A1 : f u x y = 0) by (apply E1; exact (A 0%nat u x y eq_refl eq_refl eq_refl)).
      assert (A2 : chain_sum f (y :: r) us = 0) by (apply E; intros i u' x' y' U1 X1 Y1; exact (A (S i) u' x' y' U1 X1 Y1)). lra.
Qed.

Lemma scan_zero : forall (X Y W : Type) (f : W -> X -> Y -> R) (Q : W -> X -> Y -> Prop) x ls s,
  (forall z da l, In (z, da) s -> (0 <= da)%Z -> 0 <= f z x l /\ (f z x l = 0 <-> Q z x l)) ->
  0 <= scan_sum f x ls s /\ (scan_sum f x ls s = 0 <->
    forall z da l, In (z, da) s -> (0 <= da)%Z -> nth_error ls (Z.to_nat da) = Some l -> Q z x l).
Proof.
  intros X Y W f Q x ls s. induction s as [|[z da] s IH]; intro H.
  - cbn. split; [lra|]. split; [intros _ z da l []|reflexivity].
  - destruct IH as [P E]; [intros z' d' l' I; apply H; right; exact I|].
    unfold scan_sum. cbn [fold_right fst snd]. fold (scan_sum f x ls s).
    destruct (Z.ltb_spec da 0) as [Hd|Hd].
    { split; [exact P|]. rewrite E. split.
      - intros A z' d' l' [I|I] D N; [injection I as <- <-; lia|exact (A z' d' l' I D N)].
      - intros A z' d' l' I. apply (A z' d' l'). right. exact I. }
    destruct (nth_error ls (Z.to_nat da)) as [l|] eqn:El.
    + destruct (H z da l (or_introl eq_refl) Hd) as [P1 E1]. split; [lra|]. split.
      * intro Z0. assert (A1 : f z x l = 0) by lra. assert (A2 : scan_sum f x ls s = 0) by lra. rewrite E1 in A1. rewrite E in A2.
        intros z' d' l' [I|I] D N; [injection I as <- <-; rewrite El in N; injection N as <-; exact A1|exact (A2 z' d' l' I D N)].
      * intro A. assert (A1 : f z x l = 0) by (apply E1; apply (A z da l); [left; reflexivity|exact Hd|exact El]).
        assert (A2 : scan_sum f x ls s = 0) by (apply E; intros z' d' l' I; apply (A z' d' l'); right; exact I). lra.
    + split; [exact P|]. rewrite E. split.
      * intros A z' d' l' [I|I] D N; [injection I as <- <-; rewrite El in N; discriminate|exact (A z' d' l' I D N)].
      * intros A z' d' l' I. apply (A z' d' l'). right. exact I.
Qed.
Lemma scans_zero : forall (X Y W : Type) (f : W -> X -> Y -> R) (Q : W -> X -> Y -> Prop) ls xs ss,
  (forall s z da x l, In s ss -> In (z, da) s -> (0 <= da)%Z -> 0 <= f z x l /\ (f z x l = 0 <-> Q z x l)) ->
  0 <= scans_sum f xs ls ss /\ (scans_sum f xs ls ss = 0 <->
    forall k s z da x l, nth_error ss k = Some s -> In (z, da) s -> (0 <= da)%Z -> nth_error xs k = Some x -> nth_error ls (Z.to_nat da) = Some l -> Q z x l).
Proof.
  intros X Y W f Q ls xs ss. revert xs. induction ss as [|s ss IH]; intros xs H.
  - destruct xs; cbn; (split; [lra|]; split; [intros _ [|k]; discriminate|reflexivity]).
  - destruct xs as [|x xs].
    + cbn. split; [lra|]. split; [intros _ [|k]; discriminate|reflexivity].
    + destruct (IH xs) as [P E]; [intros s' z da x' l I; apply H; right; exact I|]. 
      destruct (scan_zero X Y W f Q x ls s) as [P1 E1]; [intros z da l I; apply (H s z da x l); [left; reflexivity|exact I]|].
      cbn [scans_sum]. split; [lra|]. split.
      * intro Z0. assert (A1 : scan_sum f x ls s = 0) by lra. assert (A2 : scans_sum f xs ls ss = 0) by lra. rewrite E1 in A1. rewrite E in A2.
        intros [|k] s' z da x' l S1 I D X1 L1; [cbn in S1, X1; injection S1 as <-; injection X1 as <-; exact (A1 z da l I D L1)|exact (A2 k s' z da x' l S1 I D X1 L1)].
      * intro A. assert (A1 : scan_sum f x ls s = 0) by (apply E1; intros z da l I D L1; exact (A 0%nat s z da x l eq_refl I D eq_refl L1)).
        assert (A2 : scans_sum f xs ls ss = 0) by (apply E; intros k s' z da x' l S1; exact (A (S k) s' z da x' l S1)). lra.
Qed.

Lemma cost_2d_zero : forall vx vy vt vr vb ps ls odo ss, 0 < vx -> 0 < vy -> 0 < vt -> 0 < vr -> 0 < vb ->
  length ps = S (length odo) -> (length ss <= length ps)%nat -> assoc_within (length ls) ss ->
  (forall s z da, In s ss -> In (z, da) s -> (0 <= da)%Z -> 0 < fst z) ->
  exists c, cost_2d vx vy vt vr vb (params_2d ps ls) odo ss = Val c /\ 0 <= c /\ (c = 0 <->
    (forall i u a b, nth_error odo i = Some u -> nth_error ps i = Some a -> nth_error ps (S i) = Some b -> moved_by u a b) /\
    (forall k s z da p l, nth_error ss k = Some s -> In (z, da) s -> (0 <= da)%Z -> nth_error ps k = Some p ->
       nth_error ls (Z.to_nat da) = Some l -> located z p l)).
Proof.
  intros vx vy vt vr vb ps ls odo ss H1 H2 H3 H4 H5 HL HS HA HR.
  eexists. split; [apply cost_2d_spec; assumption|].
  destruct (chain_zero pose2 odo2 (pose_term vx vy vt) moved_by ps odo) as [P1 E1]; [intros; apply pose_term_zero; assumption|exact HL|].
  destruct (scans_zero pose2 (R * R) (R * R) (obs_term vr vb) located ls ps ss) as [P2 E2];
    [intros s z da x l I J D; apply obs_term_zero; [assumption|assumption|exact (HR s z da I J D)]|].
  split; [lra|]. split.
  - intro Z0. split; [apply E1; lra|apply E2; lra].
  - intros [A B]. apply E1 in A. apply E2 in B. lra.
Qed.

(** ** The objective of the line *)
Definition sq_over (v : R) (d : R) : R := d ^ 2 / v.
Lemma res1_sq : forall v obs p q, 0 < v -> residual_1d obs (sqrt v) p q * residual_1d obs (sqrt v) p q = sq_over v (q - p - obs).
Proof.
  intros v obs p q H. unfold residual_1d, sq_over. pose proof (sqrt_lt_R0 v H) as Hs.
  replace ((q - p - obs) / sqrt v * ((q - p - obs) / sqrt v)) with ((q - p - obs) ^ 2 / (sqrt v * sqrt v)) by (field; lra).
  rewrite sqrt_sqrt by lra. reflexivity.
Qed.
Lemma odo_cost_1d_spec : forall v xs t odo i, 0 < v -> length (skipn i xs) = S (length odo) ->
  odo_cost_1d v (xs ++ t) i odo = Val (chain_sum (fun u x y => sq_over v (y - x - u)) (skipn i xs) odo).
Proof.
  intros v xs t odo i Hv. revert i. induction odo as [|u r IH]; intros i H.
  - cbn [odo_cost_1d]. destruct (skipn i xs) as [|a [|b l]]; reflexivity.
  - destruct (skipn i xs) as [|a l] eqn:E; [discriminate|]. destruct l as [|b l]; [discriminate|].
    destruct (skipn_cons _ _ _ _ _ E) as [Ea E']. destruct (skipn_cons _ _ _ _ _ E') as [Eb _].
    assert (Li : (S i < length xs)%nat) by (apply nth_error_Some; rewrite Eb; discriminate).
    cbn [odo_cost_1d]. replace (i + 1)%nat with (S i) by lia. rewrite !rd_app_l by lia. unfold rd at 1 2. rewrite Ea, Eb. cbn [of_option obind].
    rewrite IH by (rewrite E'; cbn in *; lia). cbn [obind]. rewrite res1_sq by assumption. rewrite E'. reflexivity.
Qed.
Lemma scan_cost_1d_spec : forall v xs ls k p s, 0 < v -> nth_error xs k = Some p ->
  (forall z da, In (z, da) s -> (da < Z.of_nat (length ls))%Z) ->
  scan_cost_1d v (length xs) (xs ++ ls) k s = Val (scan_sum (fun z x l => sq_over v (l - x - z)) p ls s).
Proof.
  intros v xs ls k p s Hv Hp. induction s as [|[z da] r IH]; intro H; [reflexivity|].
  cbn [scan_cost_1d]. rewrite IH by (intros z' d' I; apply (H z' d'); right; exact I). cbn [obind].
  rewrite scan_sum_cons.
  destruct (Z.ltb_spec da 0) as [Hd|Hd]; [reflexivity|].
  assert (Lk : (k < length xs)%nat) by (apply nth_error_Some; rewrite Hp; discriminate).
  rewrite rd_app_l by exact Lk. unfold rd at 1. rewrite Hp. cbn [of_option obind]. rewrite rd_app_r.
  assert (B : (Z.to_nat da < length ls)%nat) by (specialize (H z da (or_introl eq_refl)); lia).
  unfold rd. destruct (nth_error ls (Z.to_nat da)) as [l|] eqn:El; [|apply nth_error_None in El; lia].
  cbn [of_option obind]. rewrite res1_sq by assumption. reflexivity.
Qed.
Lemma scans_cost_1d_spec : forall v xs ls ss k, 0 < v -> (length ss <= length (skipn k xs))%nat -> assoc_within (length ls) ss ->
  scans_cost_1d v (length xs) (xs ++ ls) k ss = Val (scans_sum (fun z x l => sq_over v (l - x - z)) (skipn k xs) ls ss).
Proof.
  intros v xs ls ss k Hv. revert k. induction ss as [|s r IH]; intros k H A.
  - cbn [scans_cost_1d]. destruct (skipn k xs); reflexivity.
  - destruct (skipn k xs) as [|p l] eqn:E; [cbn in H; lia|]. destruct (skipn_cons _ _ _ _ _ E) as [Ep E'].
    cbn [scans_cost_1d]. rewrite (scan_cost_1d_spec v xs ls k p s Hv Ep) by (intros z da I; apply (A s z da); [left; reflexivity|exact I]).
    cbn [obind]. rewrite IH; [|rewrite E'; cbn in H; lia|intros s' z da I; apply A; right; exact I]. cbn [obind]. rewrite E'. reflexivity.
Qed.
Lemma cost_1d_spec : forall vardx varz xs ls odo ss, 0 < vardx -> 0 < varz ->
  length xs = S (length odo) -> (length ss <= length xs)%nat -> assoc_within (length ls) ss ->
  cost_1d vardx varz (xs ++ ls) odo ss =
  Val (1 / 2 * (chain_sum (fun u x y => sq_over vardx (y - x - u)) xs odo + scans_sum (fun z x l => sq_over varz (l - x - z)) xs ls ss)).
Proof.
  intros vardx varz xs ls odo ss H1 H2 HL HS HA. unfold cost_1d. rewrite (odo_cost_1d_spec vardx xs ls odo 0 H1 HL). cbn [obind].
  rewrite <- HL, (scans_cost_1d_spec varz xs ls ss 0 H2 HS HA). reflexivity.
Qed.

(** Sums whose terms are related by an affine map. *)
Fixpoint chain_count {X U : Type} (xs : list X) (us : list U) : R :=
  match xs, us with _ :: _ :: _, _ :: us' => 1 + chain_count (tl xs) us' | _, _ => 0 end.
Lemma chain_affine : forall (X U : Type) (f g : U -> X -> X -> R) a b xs us, (forall u x y, f u x y = a * g u x y + b) ->
  chain_sum f xs us = a * chain_sum g xs us + b * chain_count xs us.
Proof.
  intros X U f g a b xs us H. revert xs. induction us as [|u us IH]; intros xs.
  - destruct xs as [|x [|y r]]; cbn; lra.
  - destruct xs as [|x [|y r]]; cbn [chain_sum chain_count tl]; try lra. rewrite IH, H. ring.
Qed.
Definition scan_count {Y W : Type} (ls : list Y) (s : list (W * Z)) : R := scan_sum (X := unit) (fun _ _ _ => 1) tt ls s.
Lemma scan_affine : forall (X Y W : Type) (f g : W -> X -> Y -> R) a b x ls s, (forall z x l, f z x l = a * g z x l + b) ->
  scan_sum f x ls s = a * scan_sum g x ls s + b * scan_count ls s.
Proof.
  intros X Y W f g a b x ls s H. unfold scan_count. induction s as [|[z da] s IH]; [cbn; lra|].
  unfold scan_sum in *. cbn [fold_right fst snd]. destruct (if Z.ltb da 0 then None else nth_error ls (Z.to_nat da)) as [l|]; [rewrite H; lra|exact IH].
Qed.
Lemma scan_count_length : forall (Y W : Type) (ls ls' : list Y) (s : list (W * Z)), length ls = length ls' -> scan_count ls s = scan_count ls' s.
Proof.
  intros Y W ls ls' s H. unfold scan_count, scan_sum. induction s as [|[z da] s IH]; [reflexivity|]. cbn [fold_right snd]. rewrite IH.
  destruct (Z.ltb da 0); [reflexivity|].
  destruct (nth_error ls (Z.to_nat da)) eqn:E; destruct (nth_error ls' (Z.to_nat da)) eqn:E'; try reflexivity.
  - apply nth_error_None in E'. assert (Z.to_nat da < length ls)%nat by (apply nth_error_Some; rewrite E; discriminate). lia.
  - apply nth_error_None in E. assert (Z.to_nat da < length ls')%nat by (apply nth_error_Some; rewrite E'; discriminate). lia.
Qed.
Fixpoint scans_count {X Y W : Type} (xs : list X) (ls : list Y) (ss : list (list (W * Z))) : R :=
  match xs, ss with _ :: xs', s :: ss' => scan_count ls s + scans_count xs' ls ss' | _, _ => 0 end.
Lemma scans_affine : forall (X Y W : Type) (f g : W -> X -> Y -> R) a b xs ls ss, (forall z x l, f z x l = a * g z x l + b) ->
  scans_sum f xs ls ss = a * scans_sum g xs ls ss + b * scans_count xs ls ss.
Proof.
  intros X Y W f g a b xs ls ss H. revert xs. induction ss as [|s ss IH]; intros [|x xs]; cbn [scans_sum scans_count]; try lra.
  rewrite IH, (scan_affine X Y W f g a b x ls s H). lra.
Qed.
Lemma scans_count_length : forall (X Y W : Type) (ls ls' : list Y) (ss : list (list (W * Z))) (xs xs' : list X), length xs = length xs' -> length ls = length ls' ->
  scans_count xs ls ss = scans_count xs' ls' ss.
Proof.
  intros X Y W ls ls' ss. induction ss as [|s ss IH]; intros xs xs' L1 L2; destruct xs, xs'; try discriminate; try reflexivity.
  cbn [scans_count]. rewrite (scan_count_length _ _ ls ls') by exact L2. rewrite (IH xs xs'); [reflexivity|cbn in L1; lia|exact L2].
Qed.
Lemma chain_count_length : forall (X U : Type) (us : list U) (xs xs' : list X), length xs = length xs' -> chain_count xs us = chain_count xs' us.
Proof.
  intros X U us. induction us as [|u us IH]; intros xs xs' L.
  - destruct xs as [|x [|y r]], xs' as [|x' [|y' r']]; try discriminate; reflexivity.
  - destruct xs as [|x [|y r]], xs' as [|x' [|y' r']]; try discriminate; try reflexivity.
    cbn [chain_count tl]. rewrite (IH (y :: r) (y' :: r')); [reflexivity|cbn in *; lia].
Qed.

Lemma cost_posterior : forall vardx varz p_infl z_infl dt g xs ls xs' ls' odo ss, 0 < vardx -> 0 < varz -> 0 < g ->
  p_infl * dt * dt = g -> z_infl = g ->
  length xs = S (length odo) -> length xs' = S (length odo) -> length ls = length ls' ->
  (length ss <= length xs)%nat -> assoc_within (length ls) ss ->
  let (q, r) := set_noise_1d vardx varz p_infl z_infl dt in
  exists c c', cost_1d vardx varz (xs ++ ls) odo ss = Val c /\ cost_1d vardx varz (xs' ++ ls') odo ss = Val c' /\
    c - c' = g * (log_posterior q r xs' ls' odo ss - log_posterior q r xs ls odo ss).
Proof.
  intros vardx varz p_infl z_infl dt g xs ls xs' ls' odo ss H1 H2 Hg Ep Ez L1 L2 L3 LS HA. unfold set_noise_1d.
  rewrite Ep, Ez. eexists. eexists. split; [apply cost_1d_spec; assumption|].
  split; [apply cost_1d_spec; try assumption; [rewrite L2, <- L1; exact LS|rewrite <- L3; exact HA]|].
  unfold log_posterior.
  set (cq := - ln (sqrt (2 * PI * (vardx * g)))). set (cr := - ln (sqrt (2 * PI * (varz * g)))).
  assert (Fq : forall u x y, log_normal (vardx * g) (y - x - u) = - (1 / (2 * g)) * sq_over vardx (y - x - u) + cq).
  { intros u x y. unfold log_normal, sq_over, cq. field. lra. }
  assert (Fr : forall z x l, log_normal (varz * g) (l - x - z) = - (1 / (2 * g)) * sq_over varz (l - x - z) + cr).
  { intros z x l. unfold log_normal, sq_over, cr. field. lra. }
  rewrite (chain_affine R R _ _ _ _ xs' odo Fq), (chain_affine R R _ _ _ _ xs odo Fq).
  rewrite (scans_affine R R R _ _ _ _ xs' ls' ss Fr), (scans_affine R R R _ _ _ _ xs ls ss Fr).
  rewrite (chain_count_length R R odo xs' xs) by lia. rewrite (scans_count_length R R R ls' ls ss xs' xs) by lia.
  field. lra.
Qed.

Lemma err_unique : forall err, principal_error err -> forall a, err a = normalize_angle a.
Proof. intros err H a. destruct (H a) as [H1 H2]. symmetry. apply normalize_exact; assumption. Qed.
Lemma cost_2d_exact : forall err vx vy vt vr vb ps ls odo ss, principal_error err -> 0 < vx -> 0 < vy -> 0 < vt -> 0 < vr -> 0 < vb ->
  length ps = S (length odo) -> (length ss <= length ps)%nat -> assoc_within (length ls) ss ->
  cost_2d vx vy vt vr vb (params_2d ps ls) odo ss =
  Val (1 / 2 * (chain_sum (pose_error err vx vy vt) ps odo + scans_sum (obs_error err vr vb) ps ls ss)).
Proof.
  intros err vx vy vt vr vb ps ls odo ss He H1 H2 H3 H4 H5 HL HS HA. rewrite cost_2d_spec by assumption.
  rewrite (chain_affine _ _ (pose_error err vx vy vt) (pose_term vx vy vt) 1 0 ps odo).
  - rewrite (scans_affine _ _ _ (obs_error err vr vb) (obs_term vr vb) 1 0 ps ls ss).
    + f_equal. lra.
    + intros z x l. unfold obs_error. rewrite (err_unique err He). ring.
  - intros u x y. unfold pose_error. rewrite (err_unique err He). ring.
Qed.
Lemma cost_1d_exact : forall vardx varz xs ls odo ss, 0 < vardx -> 0 < varz ->
  length xs = S (length odo) -> (length ss <= length xs)%nat -> assoc_within (length ls) ss ->
  cost_1d vardx varz (xs ++ ls) odo ss =
  Val (1 / 2 * (chain_sum (fun u x y => (y - x - u) ^ 2 / vardx) xs odo + scans_sum (fun z x l => (l - x - z) ^ 2 / varz) xs ls ss)).
Proof. exact cost_1d_spec. Qed.
(** The errors vanish for the motion and the sensor model of the library. *)
Lemma models_agree : forall p u z Rn, moved_by u p (move_2d p u) /\ located z p (fst (inverse_rb p z Rn)).
Proof.
  intros p u z Rn. split; [|split; reflexivity]. rewrite move_2d_eq. unfold moved_by. cbn [p_x p_y p_t].
  split; [ring|]. split; [ring|]. destruct (principal_spec (p_t p + o_t u)) as (A & B & _). apply same_angle; assumption.
Qed.
