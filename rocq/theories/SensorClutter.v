(** The clutter integral of the measurement models. *)
From Coq Require Import Reals List Bool Lra Lia.
From Coquelicot Require Import Coquelicot.
From Verif Require Import Base SensorModel SensorSpec.
Local Open Scope R_scope.

Lemma int_const : forall k a b : R, @eq R (RInt (fun _ => k) a b) ((b - a) * k).
Proof. intros. rewrite RInt_const. reflexivity. Qed.

Lemma int_ext : forall (f g : R -> R) a b, (forall x : R, @eq R (f x) (g x)) -> @eq R (RInt f a b) (RInt g a b).
Proof. intros f g a b H. apply RInt_ext. intros x _. apply H. Qed.

(** Fundamental theorem for the three integrands that occur. *)
Lemma int_prim : forall (F f : R -> R) a b, (forall x, is_derive F x (f x)) -> (forall x, continuous f x) ->
  @eq R (RInt f a b) (F b - F a).
Proof. intros F f a b HF Hf. apply is_RInt_unique. apply (is_RInt_derive F f a b); auto. Qed.

Lemma cont_der : forall (f : R -> R) (x : R), ex_derive f x -> continuous f x.
Proof. intros f x H. apply (ex_derive_continuous f x). exact H. Qed.

Lemma int_id : forall k a b : R, @eq R (RInt (fun x => k * x) a b) (k * (b ^ 2 - a ^ 2) / 2).
Proof.
  intros. rewrite (int_prim (fun x => k * x ^ 2 / 2)); [field| |].
  - intro x. auto_derive; [trivial|]. field.
  - intro x. apply cont_der. auto_derive. trivial.
Qed.
Lemma int_sq : forall k a b : R, @eq R (RInt (fun x => k * x ^ 2) a b) (k * (b ^ 3 - a ^ 3) / 3).
Proof.
  intros. rewrite (int_prim (fun x => k * x ^ 3 / 3)); [field| |].
  - intro x. auto_derive; [trivial|]. field.
  - intro x. apply cont_der. auto_derive. trivial.
Qed.
Lemma int_sin : forall k : R, @eq R (RInt (fun x => k * sin x) 0 PI) (2 * k).
Proof.
  intros. rewrite (int_prim (fun x => - k * cos x)); [rewrite cos_PI, cos_0; ring| |].
  - intro x. auto_derive; [trivial|]. ring.
  - intro x. apply cont_der. auto_derive. trivial.
Qed.
Lemma int_exp : forall k l b : R, @eq R (RInt (fun x => k * exp (- x * l) * l) 0 b) (k * (1 - exp (- b * l))).
Proof.
  intros. rewrite (int_prim (fun x => - k * exp (- x * l))).
  - rewrite Ropp_0, Rmult_0_l, exp_0. ring.
  - intro x. auto_derive; [trivial|]. ring.
  - intro x. apply cont_der. auto_derive. trivial.
Qed.

Lemma clutter_rb_ok : forall c, clutter_integral_2d c = over_rb c (fun _ _ => clutter c).
Proof.
  intro c. unfold over_rb, clutter_integral_2d, clutter. rewrite int_const, int_const. ring.
Qed.

Lemma over_ring_val : forall c, over_ring c (fun _ _ => clutter c) = s_clutter c * (PI * (s_max c ^ 2 - s_min c ^ 2)).
Proof.
  intro c. unfold over_ring, clutter.
  rewrite (int_ext _ (fun r => (2 * PI * s_clutter c) * r)).
  - rewrite int_id. field.
  - intro r. rewrite int_const. ring.
Qed.

Lemma clutter_xy_iff : forall c,
  clutter_integral_2d c = over_ring c (fun _ _ => clutter c) <->
  s_clutter c = 0 \/ s_max c = s_min c \/ s_max c + s_min c = 2.
Proof.
  intro c. rewrite over_ring_val. unfold clutter_integral_2d. pose proof PI_RGT_0 as HP. split.
  - intro H. assert (E : s_clutter c * ((s_max c - s_min c) * (s_max c + s_min c - 2)) = 0).
    { apply (Rmult_eq_reg_r PI); [|lra].
      transitivity (s_clutter c * (PI * (s_max c ^ 2 - s_min c ^ 2)) - s_clutter c * (2 * PI * (s_max c - s_min c))); [ring|].
      rewrite <- H. ring. }
    apply Rmult_integral in E. destruct E as [E|E]; [left; exact E|right].
    apply Rmult_integral in E. destruct E; [left|right]; lra.
  - intros [->|[->|H]]; [ring|ring|]. replace (s_max c) with (2 - s_min c) by lra. ring.
Qed.

Lemma over_1d_val : forall c, over_1d c (fun _ => clutter c) = 2 * clutter_integral_1d c.
Proof. intro c. unfold over_1d, clutter_integral_1d, clutter. rewrite !int_const. ring. Qed.

Lemma clutter_1d_iff : forall c,
  clutter_integral_1d c = over_1d c (fun _ => clutter c) <-> s_clutter c = 0 \/ s_max c = s_min c.
Proof.
  intro c. rewrite over_1d_val. unfold clutter_integral_1d. split.
  - intro H. assert (E : s_clutter c * (s_max c - s_min c) = 0) by lra. apply Rmult_integral in E.
    destruct E; [left|right]; lra.
  - intros [->| ->]; ring.
Qed.

Lemma clutter_6d_ok : forall c, clutter_integral_6d c = over_shell c (fun _ _ _ => clutter c).
Proof.
  intro c. unfold over_shell, clutter, clutter_integral_6d. symmetry.
  rewrite (int_ext _ (fun r => (4 * PI * s_clutter c) * r ^ 2)).
  - rewrite int_sq. field.
  - intro r. rewrite (int_ext _ (fun a => (2 * PI * s_clutter c * r ^ 2) * sin a)).
    + rewrite int_sin. ring.
    + intro a. rewrite int_const. ring.
Qed.

(** With the amplitude: the integral over amplitudes up to A tends to the reported one. *)
Lemma clutter_amp_val : forall c A, RInt (fun a => over_rb c (fun _ _ => clutter_amp c a)) 0 A =
  clutter_integral_2d c * (1 - exp (- A * (7777 / 10000))).
Proof.
  intros c A. unfold clutter_amp, over_rb, clutter_integral_2d.
  rewrite (int_ext _ (fun a => (s_clutter c * (2 * PI * (s_max c - s_min c))) * exp (- a * (7777 / 10000)) * (7777 / 10000))).
  - apply int_exp.
  - intro a. rewrite int_const, int_const. field.
Qed.

Lemma clutter_amp_ok : forall c,
  is_lim (fun A => RInt (fun a => over_rb c (fun _ _ => clutter_amp c a)) 0 A) p_infty (clutter_integral_2d c).
Proof.
  intro c. apply (is_lim_ext (fun A => clutter_integral_2d c * (1 - exp (- A * (7777 / 10000))))).
  { intro A. symmetry. apply clutter_amp_val. }
  replace (Finite (clutter_integral_2d c)) with (Rbar_mult (clutter_integral_2d c) (Finite (1 - 0))) by (simpl; f_equal; ring).
  apply is_lim_scal_l. apply (is_lim_minus _ _ _ 1 0); [apply is_lim_const| |reflexivity].
  apply (is_lim_comp exp (fun A => - A * (7777 / 10000)) p_infty 0 m_infty).
  - apply is_lim_exp_m.
  - apply (is_lim_ext (fun A => (- (7777 / 10000)) * A)); [intro; ring|].
    evar_last; [apply is_lim_scal_l; apply is_lim_id|]. simpl. destruct (Rle_dec _ _) as [H|H]; [exfalso; lra|reflexivity].
  - exists 0. intros x _ H. discriminate H.
Qed.
