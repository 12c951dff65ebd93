(** The wrap loops in double precision. *)
From Coq Require Import Reals ZArith Lra Lia Psatz.
From Flocq Require Import Core BinarySingleNaN.
From Verif Require Import Base AngleModel.
Local Open Scope R_scope.

Notation fx := (SpecFloat.fexp 53 1024).
Notation rnd := (round radix2 fx ZnearestE).
Notation v := (@B2R 53 1024).

Instance fx_valid : Valid_exp fx := @fexp_correct 53 1024 Hprec.
Instance fx_mono : Monotone_exp fx := @fexp_monotone 53 1024.

Lemma vPI : v PId = 7074237752028440 / 2251799813685248.
Proof. unfold PId, B2R, F2R. cbn. lra. Qed.
Lemma vTwo : v TwoPId = 2 * v PId.
Proof. rewrite vPI. unfold TwoPId, B2R, F2R. cbn. lra. Qed.
Lemma PI_bounds : 31 / 10 < v PId < 4.
Proof. rewrite vPI. lra. Qed.

(** Rounding error below 2^56. *)
Lemma round_err : forall x, Rabs x < bpow radix2 56 -> Rabs (rnd x - x) <= 4.
Proof.
  intros x Hx. destruct (Req_dec x 0) as [->|Hn].
  - rewrite round_0 by typeclasses eauto. rewrite Rminus_0_r, Rabs_R0. lra.
  - apply Rle_trans with (1 := error_le_half_ulp radix2 fx _ x).
    rewrite ulp_neq_0 by exact Hn. unfold cexp.
    assert (bpow radix2 (fx (mag radix2 x)) <= bpow radix2 3).
    { apply bpow_le. pose proof (mag_le_bpow radix2 x 56 Hn Hx). unfold SpecFloat.fexp, SpecFloat.emin. lia. }
    cbn in H. cbn in *. lra.
Qed.

Lemma small_round : forall x, Rabs x <= bpow radix2 56 -> Rabs (rnd x) < bpow radix2 1024.
Proof.
  intros x Hx. apply Rle_lt_trans with (bpow radix2 56).
  - apply abs_round_le_generic; [typeclasses eauto|typeclasses eauto| |exact Hx].
    apply generic_format_bpow. cbn. lia.
  - apply bpow_lt. lia.
Qed.

Lemma format_v : forall x : double, generic_format radix2 fx (v x).
Proof. intros x. apply generic_format_B2R. Qed.

Lemma fin_PI : is_finite PId = true. Proof. reflexivity. Qed.
Lemma fin_Two : is_finite TwoPId = true. Proof. reflexivity. Qed.

Lemma sub_ok : forall x : double, is_finite x = true -> Rabs (v x - v TwoPId) <= bpow radix2 56 ->
  is_finite (subd x TwoPId) = true /\ v (subd x TwoPId) = rnd (v x - v TwoPId).
Proof.
  intros x Hf Hx. pose proof (@Bminus_correct 53 1024 Hprec Hmax mode_NE x TwoPId Hf fin_Two) as H.
  rewrite Rlt_bool_true in H; [|apply small_round; exact Hx].
  destruct H as (H1 & H2 & _). split; [exact H2|exact H1].
Qed.
Lemma add_ok : forall x : double, is_finite x = true -> Rabs (v x + v TwoPId) <= bpow radix2 56 ->
  is_finite (addd x TwoPId) = true /\ v (addd x TwoPId) = rnd (v x + v TwoPId).
Proof.
  intros x Hf Hx. pose proof (@Bplus_correct 53 1024 Hprec Hmax mode_NE x TwoPId Hf fin_Two) as H.
  rewrite Rlt_bool_true in H; [|apply small_round; exact Hx].
  destruct H as (H1 & H2 & _). split; [exact H2|exact H1].
Qed.

Lemma b50 : 100 < bpow radix2 56.
Proof. cbn. lra. Qed.

Lemma wrapd_down_ok : forall n (x : double), is_finite x = true ->
  Rabs (v x) <= bpow radix2 56 -> v x <= v PId + INR n * 2 ->
  exists y, (forall fuel, (n < fuel)%nat -> wrapd_down fuel x = Val y) /\
    is_finite y = true /\ Rabs (v y) <= bpow radix2 56 /\ v y <= v PId /\ (v x <= v PId -> y = x) /\
    (v PId < v x -> - v PId <= v y).
Proof.
  pose proof PI_bounds as HP. pose proof b50 as HB.
  induction n as [|n IH]; intros x Hf Hx Hn.
  - cbn [INR] in Hn. exists x. split.
    + intros [|f] Hf'; [lia|]. cbn [wrapd_down]. rewrite Bltb_correct by (exact Hf || exact fin_PI).
      rewrite Rlt_bool_false by lra. reflexivity.
    + repeat split; auto; intros; lra.
  - destruct (Rlt_dec (v PId) (v x)) as [H|H].
    + assert (Hd : Rabs (v x - v TwoPId) <= bpow radix2 56).
      { rewrite vTwo. apply Rabs_le. apply Rabs_le_inv in Hx. lra. }
      destruct (sub_ok x Hf Hd) as [F1 V1].
      assert (Hd' : Rabs (v x - v TwoPId) < bpow radix2 56) by (rewrite vTwo; apply Rabs_def1; apply Rabs_le_inv in Hx; lra).
      pose proof (round_err _ Hd') as He. apply Rabs_le_inv in He.
      rewrite vTwo in *.
      assert (Hlow : - v PId <= v (subd x TwoPId)).
      { rewrite V1. apply round_ge_generic; [typeclasses eauto|typeclasses eauto| |lra].
        apply generic_format_opp. apply format_v. }
      rewrite S_INR in Hn.
      destruct (IH (subd x TwoPId) F1) as (y & E & Fy & Ay & By & Iy & Ly).
      * rewrite V1. apply Rabs_le. apply Rabs_le_inv in Hx. rewrite V1 in Hlow. lra.
      * rewrite V1. lra.
      * exists y. split.
        -- intros [|f] Hf'; [lia|]. cbn [wrapd_down]. rewrite Bltb_correct by (exact Hf || exact fin_PI).
           rewrite Rlt_bool_true by exact H. apply E. lia.
        -- split; [exact Fy|]. split; [exact Ay|]. split; [exact By|]. split; [intros; lra|].
           intros _. destruct (Rle_dec (v (subd x TwoPId)) (v PId)) as [G|G].
           ++ rewrite (Iy G). exact Hlow.
           ++ apply Ly. lra.
    + exists x. split.
      * intros [|f] Hf'; [lia|]. cbn [wrapd_down]. rewrite Bltb_correct by (exact Hf || exact fin_PI).
        rewrite Rlt_bool_false by lra. reflexivity.
      * repeat split; auto; intros; lra.
Qed.

Lemma wrapd_up_ok : forall n (x : double), is_finite x = true ->
  Rabs (v x) <= bpow radix2 56 -> v x <= v PId -> - v PId - INR n * 2 <= v x ->
  exists y, (forall fuel, (n < fuel)%nat -> wrapd_up fuel x = Val y) /\
    is_finite y = true /\ - v PId <= v y <= v PId /\ (- v PId <= v x -> y = x).
Proof.
  pose proof PI_bounds as HP. pose proof b50 as HB.
  assert (vo : v (Bopp PId) = - v PId) by apply B2R_Bopp.
  assert (fo : is_finite (Bopp PId) = true) by reflexivity.
  induction n as [|n IH]; intros x Hf Hx Hu Hn.
  - cbn [INR] in Hn. exists x. split.
    + intros [|f] Hf'; [lia|]. cbn [wrapd_up]. rewrite Bltb_correct by (exact Hf || exact fo).
      rewrite Rlt_bool_false by lra. reflexivity.
    + repeat split; auto; intros; lra.
  - destruct (Rlt_dec (v x) (- v PId)) as [H|H].
    + assert (Hd : Rabs (v x + v TwoPId) <= bpow radix2 56).
      { rewrite vTwo. apply Rabs_le. apply Rabs_le_inv in Hx. lra. }
      destruct (add_ok x Hf Hd) as [F1 V1].
      assert (Hd' : Rabs (v x + v TwoPId) < bpow radix2 56) by (rewrite vTwo; apply Rabs_def1; apply Rabs_le_inv in Hx; lra).
      pose proof (round_err _ Hd') as He. apply Rabs_le_inv in He.
      rewrite vTwo in *.
      assert (Hhi : v (addd x TwoPId) <= v PId).
      { rewrite V1. apply round_le_generic; [typeclasses eauto|typeclasses eauto|apply format_v|lra]. }
      rewrite S_INR in Hn.
      destruct (IH (addd x TwoPId) F1) as (y & E & Fy & By & Iy).
      * rewrite V1. apply Rabs_le. apply Rabs_le_inv in Hx. rewrite V1 in Hhi. lra.
      * exact Hhi.
      * rewrite V1. lra.
      * exists y. split.
        -- intros [|f] Hf'; [lia|]. cbn [wrapd_up]. rewrite Bltb_correct by (exact Hf || exact fo).
           rewrite Rlt_bool_true by lra. apply E. lia.
        -- split; [exact Fy|]. split; [exact By|]. intros; lra.
    + exists x. split.
      * intros [|f] Hf'; [lia|]. cbn [wrapd_up]. rewrite Bltb_correct by (exact Hf || exact fo).
        rewrite Rlt_bool_false by lra. reflexivity.
      * repeat split; auto; intros; lra.
Qed.

Lemma archimed2 : forall a, exists n : nat, a <= INR n * 2.
Proof.
  intros a. destruct (Rle_dec a 0) as [H|H]; [exists 0%nat; simpl; lra|].
  destruct (archimed (a / 2)) as [H1 _]. exists (Z.to_nat (up (a / 2))).
  assert (Hz : (0 <= up (a / 2))%Z) by (apply le_IZR; lra).
  rewrite INR_IZR_INZ, Z2Nat.id by exact Hz. lra.
Qed.

Lemma wrapd_ok : forall x : double, is_finite x = true -> Rabs (v x) <= bpow radix2 56 ->
  exists n y, (forall fuel, (n < fuel)%nat -> wrapd fuel x = Val y) /\
    is_finite y = true /\ - v PId <= v y <= v PId /\ (- v PId <= v x <= v PId -> y = x).
Proof.
  intros x Hf Hx. pose proof PI_bounds as HP.
  destruct (archimed2 (v x)) as [n1 H1]. destruct (archimed2 (- v x)) as [n2 H2].
  destruct (wrapd_down_ok n1 x Hf Hx ltac:(lra)) as (y1 & E1 & F1 & A1 & B1 & I1 & L1).
  assert (G : - v PId - INR n2 * 2 <= v y1).
  { destruct (Rle_dec (v x) (v PId)) as [H|H]; [rewrite (I1 H); lra|].
    pose proof (L1 ltac:(lra)). pose proof (pos_INR n2). lra. }
  destruct (wrapd_up_ok n2 y1 F1 A1 B1 G) as (y & E & Fy & By & Iy).
  exists (n1 + n2)%nat, y. split.
  - intros fuel Hfu. unfold wrapd. rewrite E1 by lia. cbn [obind]. apply E. lia.
  - split; [exact Fy|]. split; [exact By|]. intros H. rewrite Iy; [apply I1; lra|]. rewrite I1; lra.
Qed.

(** A fixed point of the subtraction above PI: the loop never ends. *)
Lemma stuck : forall x : double, Bltb PId x = true -> subd x TwoPId = x -> forall fuel, wrapd fuel x = OutOfFuel.
Proof.
  intros x H1 H2 fuel. unfold wrapd.
  assert (E : wrapd_down fuel x = OutOfFuel).
  { induction fuel as [|f IH]; cbn [wrapd_down]; [reflexivity|]. rewrite H1, H2. exact IH. }
  rewrite E. reflexivity.
Qed.

(** Above 2^56 the subtraction changes nothing. *)
Lemma sub_fixed : forall x : double, is_finite x = true -> bpow radix2 56 < v x -> subd x TwoPId = x.
Proof.
  intros x Hf Hx. pose proof PI_bounds as HP. pose proof (format_v x) as Fx.
  pose proof (bpow_gt_0 radix2 56) as H0.
  assert (F56 : generic_format radix2 fx (bpow radix2 56)) by (apply generic_format_bpow; cbn; lia).
  pose proof (pred_ge_gt radix2 fx _ _ F56 Fx Hx) as Hpr.
  assert (Hu : v x = pred radix2 fx (v x) + ulp radix2 fx (pred radix2 fx (v x)))
    by (symmetry; apply pred_plus_ulp; [typeclasses eauto|lra|exact Fx]).
  assert (Hul : 16 <= ulp radix2 fx (pred radix2 fx (v x))).
  { apply Rle_trans with (ulp radix2 fx (bpow radix2 56)).
    - rewrite ulp_bpow. replace (fx (56 + 1)) with 4%Z by reflexivity. cbn. lra.
    - apply ulp_le; try typeclasses eauto. rewrite !Rabs_pos_eq by lra. exact Hpr. }
  assert (Er : rnd (v x - v TwoPId) = v x).
  { apply Rle_antisym.
    - apply round_le_generic; try typeclasses eauto; [exact Fx|]. rewrite vTwo. lra.
    - apply round_N_ge_midp; try typeclasses eauto; [exact Fx|]. rewrite vTwo. lra. }
  pose proof (@Bminus_correct 53 1024 Hprec Hmax mode_NE x TwoPId Hf fin_Two) as H.
  change (round_mode mode_NE) with ZnearestE in H. rewrite Er in H.
  rewrite Rlt_bool_true in H by (apply abs_B2R_lt_emax).
  destruct H as (H1 & H2 & _). fold (subd x TwoPId) in H1, H2.
  apply B2R_inj.
  - destruct (subd x TwoPId); try discriminate; [|reflexivity]. exfalso. cbn in H1. lra.
  - destruct x; try discriminate; [|reflexivity]. exfalso. cbn in Hx. cbn in H0. lra.
  - exact H1.
Qed.

Lemma stuck_above : forall x : double, is_finite x = true -> bpow radix2 56 < v x ->
  forall fuel, wrapd fuel x = OutOfFuel.
Proof.
  intros x Hf Hx. apply stuck; [|apply sub_fixed; assumption].
  rewrite Bltb_correct by (exact Hf || exact fin_PI). apply Rlt_bool_true.
  pose proof PI_bounds. pose proof b50. lra.
Qed.

(** Below -2^56 the addition changes nothing. *)
Lemma add_fixed : forall x : double, is_finite x = true -> v x < - bpow radix2 56 -> addd x TwoPId = x.
Proof.
  intros x Hf Hx. pose proof PI_bounds as HP. pose proof (format_v x) as Fx.
  pose proof (bpow_gt_0 radix2 56) as H0.
  assert (F56 : generic_format radix2 fx (bpow radix2 56)) by (apply generic_format_bpow; cbn; lia).
  assert (Fo : generic_format radix2 fx (- v x)) by (apply generic_format_opp; exact Fx).
  pose proof (pred_ge_gt radix2 fx _ _ F56 Fo ltac:(lra)) as Hpr.
  assert (Hu : - v x = pred radix2 fx (- v x) + ulp radix2 fx (pred radix2 fx (- v x)))
    by (symmetry; apply pred_plus_ulp; [typeclasses eauto|lra|exact Fo]).
  assert (Hul : 16 <= ulp radix2 fx (pred radix2 fx (- v x))).
  { apply Rle_trans with (ulp radix2 fx (bpow radix2 56)).
    - rewrite ulp_bpow. replace (fx (56 + 1)) with 4%Z by reflexivity. cbn. lra.
    - apply ulp_le; try typeclasses eauto. rewrite !Rabs_pos_eq by lra. exact Hpr. }
  assert (Er : rnd (v x + v TwoPId) = v x).
  { apply Rle_antisym.
    - apply round_N_le_midp; try typeclasses eauto; [exact Fx|]. rewrite vTwo.
      pose proof (pred_opp radix2 fx (v x)) as E. lra.
    - apply round_ge_generic; try typeclasses eauto; [exact Fx|]. rewrite vTwo. lra. }
  pose proof (@Bplus_correct 53 1024 Hprec Hmax mode_NE x TwoPId Hf fin_Two) as H.
  change (round_mode mode_NE) with ZnearestE in H. rewrite Er in H.
  rewrite Rlt_bool_true in H by (apply abs_B2R_lt_emax).
  destruct H as (H1 & H2 & _). fold (addd x TwoPId) in H1, H2.
  apply B2R_inj.
  - destruct (addd x TwoPId); try discriminate; [|reflexivity]. exfalso. cbn in H1. lra.
  - destruct x; try discriminate; [|reflexivity]. exfalso. cbn in Hx. cbn in H0. lra.
  - exact H1.
Qed.

Lemma stuck_below : forall x : double, is_finite x = true -> v x < - bpow radix2 56 ->
  forall fuel, wrapd fuel x = OutOfFuel.
Proof.
  intros x Hf Hx fuel. pose proof PI_bounds. pose proof b50.
  assert (vo : v (Bopp PId) = - v PId) by apply B2R_Bopp.
  unfold wrapd. destruct fuel as [|f]; [reflexivity|]. cbn [wrapd_down].
  rewrite Bltb_correct by (exact Hf || exact fin_PI). rewrite Rlt_bool_false by lra. cbn [obind].
  generalize (S f). induction n as [|n IH]; cbn [wrapd_up]; [reflexivity|].
  rewrite Bltb_correct by (exact Hf || reflexivity). rewrite Rlt_bool_true by lra.
  rewrite (add_fixed x Hf Hx). exact IH.
Qed.

(** Exactly the doubles up to 2^56 in absolute value come back. *)
Lemma wrapd_iff : forall x : double, is_finite x = true ->
  ((exists fuel y, wrapd fuel x = Val y) <-> Rabs (v x) <= bpow radix2 56).
Proof.
  intros x Hf. split.
  - intros (fuel & y & E). destruct (Rle_dec (Rabs (v x)) (bpow radix2 56)) as [H|H]; [exact H|exfalso].
    unfold Rabs in H. destruct (Rcase_abs (v x)).
    + rewrite (stuck_below x Hf ltac:(lra) fuel) in E. discriminate.
    + rewrite (stuck_above x Hf ltac:(lra) fuel) in E. discriminate.
  - intros H. destruct (wrapd_ok x Hf H) as (n & y & E & _). exists (S n), y. apply E. lia.
Qed.

(** Infinite angles do not come back, NaN does at once. *)
Lemma wrapd_inf : forall s fuel, wrapd fuel (B754_infinity s) = OutOfFuel.
Proof.
  intros [|] fuel; [|apply stuck; reflexivity].
  unfold wrapd. destruct fuel as [|f]; [reflexivity|].
  replace (wrapd_down (S f) (B754_infinity true)) with (@Val double (B754_infinity true)) by reflexivity. cbn [obind].
  generalize (S f). induction n as [|n IH]; cbn [wrapd_up]; [reflexivity|]. exact IH.
Qed.
