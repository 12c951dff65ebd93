(** Proofs about motion likelihoods, their gradients and sampling. *)
From Coq Require Import Reals Lra Lia ZArith List Bool.
From Coquelicot Require Import Coquelicot.
From Verif Require Import Base SensorModel SensorProofs SensorDeriv OdometryModel OdometrySpec OdometryProofs.
Import ListNotations.
Local Open Scope R_scope.

Lemma likelihood_turns : forall Sinv det s_k x y a dx dy b (j k : Z),
  motion_likelihood Sinv det s_k (P2 x y (a + IZR j * (2 * PI))) (O2 dx dy (b + IZR k * (2 * PI))) =
  motion_likelihood Sinv det s_k (P2 x y a) (O2 dx dy b).
Proof.
  intros. unfold motion_likelihood. f_equal. f_equal.
  assert (E : move_2d (P2 x y (a + IZR j * (2 * PI))) (O2 dx dy (b + IZR k * (2 * PI))) = move_2d (P2 x y a) (O2 dx dy b)).
  { rewrite !move_2d_eq. cbn [p_x p_y p_t o_x o_y o_t]. rewrite cos_turns, sin_turns. f_equal.
    replace (a + IZR j * (2 * PI) + (b + IZR k * (2 * PI))) with (a + b + IZR (j + k) * (2 * PI)) by (rewrite plus_IZR; ring).
    apply principal_ext; [apply cos_turns|apply sin_turns]. }
  rewrite E. reflexivity.
Qed.

(** ** Gradient *)
Ltac eqr := cbv beta; match goal with |- @eq _ ?l ?r => change (@eq R l r) end.
Lemma dot_ext : forall n f g f' g', (forall i, (i < n)%nat -> f i = f' i) -> (forall i, (i < n)%nat -> g i = g' i) ->
  dot n f g = dot n f' g'.
Proof.
  induction n as [|n IH]; intros f g f' g' Hf Hg; cbn [dot]; [reflexivity|].
  rewrite (IH f g f' g') by (intros; try apply Hf; try apply Hg; lia). rewrite Hf, Hg by lia. reflexivity.
Qed.

Lemma dot_add : forall n f g h, dot n (fun i => f i + g i) h = dot n f h + dot n g h.
Proof. induction n as [|n IH]; intros; cbn [dot]; [ring|]. rewrite IH. ring. Qed.
Lemma dot_scale : forall n k f h, dot n (fun i => k * f i) h = k * dot n f h.
Proof. induction n as [|n IH]; intros; cbn [dot]; [ring|]. rewrite IH. ring. Qed.
Lemma dot_comm : forall n f g, dot n f g = dot n g f.
Proof. induction n as [|n IH]; intros; cbn [dot]; [ring|]. rewrite IH. ring. Qed.
Lemma dot_0 : forall n h, dot n (fun _ => 0) h = 0.
Proof. induction n as [|n IH]; intros; cbn [dot]; [ring|]. rewrite IH. ring. Qed.

Lemma dot_swap : forall n m A e w, dot n e (fun i => dot m (A i) w) = dot m (fun j => dot n e (fun i => A i j)) w.
Proof.
  induction n as [|n IH]; intros m A e w; cbn [dot].
  - rewrite dot_0. reflexivity.
  - rewrite IH, dot_add, dot_scale. reflexivity.
Qed.

Lemma mapp_sym : forall n S e w, (forall i j, (i < n)%nat -> (j < n)%nat -> S i j = S j i) ->
  dot n e (mapp n S w) = dot n (mapp n S e) w.
Proof.
  intros n S e w H. unfold mapp. rewrite dot_swap. apply dot_ext; [|reflexivity].
  intros i Hi. rewrite dot_comm. apply dot_ext; [|reflexivity]. intros j Hj. apply H; assumption.
Qed.

Lemma der_dot : forall n (f g : R -> vec) (t : R) (f' g' : vec),
  (forall i, (i < n)%nat -> is_derive (fun s => f s i) t (f' i)) ->
  (forall i, (i < n)%nat -> is_derive (fun s => g s i) t (g' i)) ->
  is_derive (fun s => dot n (f s) (g s)) t (dot n f' (g t) + dot n (f t) g').
Proof.
  induction n as [|n IH]; intros f g t f' g' Hf Hg.
  - cbn [dot]. evar_last; [apply (is_derive_const (V := R_NormedModule))|]. change (0 = 0 + 0). ring.
  - cbn [dot]. evar_last.
    + apply der_plus; [apply IH; intros; [apply Hf|apply Hg]; lia|]. apply der_mult; [apply Hf|apply Hg]; lia.
    + eqr. change (fun i : nat => f' i) with f'. change (fun i : nat => g' i) with g'. ring.
Qed.

Lemma der_shift : forall (f : R -> R) (t f' c : R), is_derive f t f' -> is_derive (fun s => f s - c) t f'.
Proof.
  intros f t f' c H. evar_last; [apply der_minus; [exact H|apply (is_derive_const (V := R_NormedModule))]|].
  change (f' - 0 = f'). ring.
Qed.

Lemma der_maha : forall n S (e : R -> vec) (t : R) (e' : vec), (forall i j, (i < n)%nat -> (j < n)%nat -> S i j = S j i) ->
  (forall i, (i < n)%nat -> is_derive (fun s => e s i) t (e' i)) ->
  is_derive (fun s => maha_n n S (e s)) t (2 * dot n (mapp n S (e t)) e').
Proof.
  intros n S e t e' HS H. unfold maha_n. evar_last.
  - apply (der_dot n e (fun s => mapp n S (e s)) t e' (mapp n S e')); [exact H|].
    intros i Hi. unfold mapp. evar_last.
    + apply (der_dot n (fun _ => S i) e t (fun _ => 0) e'); [|exact H].
      intros j Hj. apply (is_derive_const (V := R_NormedModule)).
    + eqr. rewrite dot_0. ring.
  - eqr. rewrite (mapp_sym n S (e t) e') by exact HS. rewrite (dot_comm n e'). ring.
Qed.

Lemma dot_opp : forall n f h, dot n (fun i => - f i) h = - dot n f h.
Proof. induction n as [|n IH]; intros; cbn [dot]; [ring|]. rewrite IH. ring. Qed.

Lemma grad_log : forall n S det pred (x : R -> vec) (t : R) (dx : vec), (forall i j, (i < n)%nat -> (j < n)%nat -> S i j = S j i) ->
  (forall i, (i < n)%nat -> is_derive (fun s => x s i) t (dx i)) ->
  is_derive (fun s => fst (log_likelihood_grad n S det pred (x s))) t (dot n (snd (log_likelihood_grad n S det pred (x t))) dx).
Proof.
  intros n S det pred x t dx HS H. unfold log_likelihood_grad, log_gauss. cbn [fst snd].
  evar_last.
  - apply der_shift. apply der_mult; [apply (is_derive_const (V := R_NormedModule))|].
    apply (der_maha n S (fun s i => x s i - pred i) t dx HS). intros i Hi. apply der_shift. apply H. exact Hi.
  - eqr. rewrite dot_opp. change (@zero R_NormedModule) with 0.
    replace (-1 / 2) with (- / 2) by field. field.
Qed.

Lemma der_exp : forall f x (f' : R), is_derive f x f' -> is_derive (fun t => exp (f t)) x (exp (f x) * f').
Proof.
  intros f x f' H. evar_last; [apply (is_derive_comp exp f x); [apply is_derive_exp|exact H]|].
  change (f' * exp (f x) = exp (f x) * f'). ring.
Qed.

Lemma grad_lik : forall n S det pred (x : R -> vec) (t : R) (dx : vec), (forall i j, (i < n)%nat -> (j < n)%nat -> S i j = S j i) ->
  (forall i, (i < n)%nat -> is_derive (fun s => x s i) t (dx i)) ->
  let r := likelihood_grad n S det pred (x t) in
  is_derive (fun s => fst (likelihood_grad n S det pred (x s))) t (fst r * dot n (snd r) dx).
Proof.
  intros n S det pred x t dx HS H r. unfold r, likelihood_grad, gauss. cbn [fst snd]. unfold Rdiv at 1.
  evar_last.
  - apply der_mult; [|apply (is_derive_const (V := R_NormedModule))]. apply der_exp.
    apply der_mult; [apply (is_derive_const (V := R_NormedModule))|].
    apply (der_maha n S (fun s i => x s i - pred i) t dx HS). intros i Hi. apply der_shift. apply H. exact Hi.
  - eqr. rewrite dot_opp. change (@zero R_NormedModule) with 0. unfold Rdiv.
    set (k := / sqrt _). set (ex := exp _). set (d := dot _ _ _). field.
Qed.

(** ** Special values *)
Lemma factor_pos : forall n det, 0 < det -> 0 < sqrt ((2 * PI) ^ n * det).
Proof.
  intros n det H. apply sqrt_lt_R0. apply Rmult_lt_0_compat; [|exact H]. apply pow_lt. pose proof PI_RGT_0. lra.
Qed.

Lemma xlik_fin : forall n det m, 0 < det -> xlik n det (Fin m) = Fin (gauss n det m) /\ xloglik n det (Fin m) = Fin (log_gauss n det m).
Proof.
  intros n det m H. pose proof (factor_pos n det H) as F. unfold xlik, xloglik, xfactor, xsqrt, gauss, log_gauss.
  assert (P : 0 < (2 * PI) ^ n * det).
  { apply Rmult_lt_0_compat; [|exact H]. apply pow_lt. pose proof PI_RGT_0. lra. }
  destruct (Rlt_dec ((2 * PI) ^ n * det) 0); [lra|]. cbn [xmul xexp xdiv xsub xln zero_nan].
  destruct (Req_EM_T (sqrt ((2 * PI) ^ n * det)) 0); [lra|]. destruct (Rlt_dec 0 (sqrt ((2 * PI) ^ n * det))); [|lra].
  split; reflexivity.
Qed.

Lemma gauss_ln : forall n det m, 0 < det -> exp (log_gauss n det m) = gauss n det m.
Proof.
  intros n det m H. unfold log_gauss, gauss. unfold Rminus. rewrite exp_plus, exp_Ropp, exp_ln by (apply factor_pos; exact H).
  reflexivity.
Qed.

Lemma xlog_agree : forall n det m, 0 < det -> m <> NaN -> m <> Inf true -> xexp (xloglik n det m) = xlik n det m.
Proof.
  intros n det m H N1 N2. destruct m as [m|[]|]; try congruence.
  - destruct (xlik_fin n det m H) as [E1 E2]. rewrite E1, E2. cbn [xexp]. rewrite gauss_ln by exact H. reflexivity.
  - pose proof (factor_pos n det H) as F.
    assert (P : 0 < (2 * PI) ^ n * det).
    { apply Rmult_lt_0_compat; [|exact H]. apply pow_lt. pose proof PI_RGT_0. lra. }
    unfold xlik, xloglik, xfactor, xsqrt. destruct (Rlt_dec ((2 * PI) ^ n * det) 0); [lra|].
    cbn [xmul]. destruct (Req_EM_T (-1 / 2) 0); [lra|]. unfold neg_of. destruct (Rlt_dec (-1 / 2) 0); [|lra].
    cbn [xorb xexp xln]. destruct (Rlt_dec 0 (sqrt ((2 * PI) ^ n * det))); [|lra]. cbn [xsub zero_nan xexp xdiv].
    destruct (Req_EM_T (sqrt ((2 * PI) ^ n * det)) 0); [lra|]. cbn [zero_nan]. f_equal. unfold Rdiv. ring.
Qed.

Lemma xlog_singular : forall x at_, xlik 1 0 (xmaha1 x 0 at_) = Fin 0 /\ xloglik 1 0 (xmaha1 x 0 at_) = Fin 0.
Proof.
  intros x at_.
  assert (F : xfactor 1 0 = Fin 0).
  { unfold xfactor, xsqrt. rewrite Rmult_0_r, sqrt_0. destruct (Rlt_dec 0 0); [lra|reflexivity]. }
  assert (M : xmaha1 x 0 at_ = NaN \/ xmaha1 x 0 at_ = Inf false).
  { unfold xmaha1. cbn [xdiv]. destruct (Req_EM_T 0 0) as [_|]; [|congruence]. destruct (Req_EM_T 1 0); [lra|].
    unfold neg_of. destruct (Rlt_dec 1 0); [lra|]. cbn [xmul]. destruct (Req_EM_T (at_ - x) 0) as [E|E]; [left; reflexivity|].
    right. unfold neg_of. cbn [xorb xmul]. destruct (Req_EM_T (at_ - x) 0); [congruence|]. unfold neg_of.
    destruct (Rlt_dec (at_ - x) 0); reflexivity. }
  unfold xlik, xloglik. rewrite F. cbn [xln]. destruct (Rlt_dec 0 0); [lra|]. destruct (Req_EM_T 0 0); [|congruence].
  destruct M as [-> | ->]; cbn [xmul].
  - cbn. tauto.
  - destruct (Req_EM_T (-1 / 2) 0); [lra|]. unfold neg_of. destruct (Rlt_dec (-1 / 2) 0); [|lra].
    cbn [xorb xexp xdiv xsub Bool.eqb zero_nan]. destruct (Req_EM_T 0 0); [|congruence]. cbn. tauto.
Qed.

(** ** Sampling *)
Section S.
Variables (St In : Type).
Variable step : rv St -> rv St -> In -> Z -> bool -> outcome (rv St * option mx).

Lemma sample_defined : forall di dr n Q old s u dT additive input,
  (forall u', step old s u' dT false <> UB Uninit) -> (additive = true -> Q <> None) ->
  sample step di dr n Q old s u dT additive input <> UB Uninit.
Proof.
  intros di dr n Q old s u dT additive input Hs HQ. unfold sample.
  specialize (Hs (if input then di u else u)). destruct (step old s _ dT false) as [r|e|]; cbn [obind]; [|congruence|congruence].
  destruct additive; [|congruence]. destruct Q as [Q|]; [|exfalso; apply HQ; reflexivity].
  destruct (nonzero n Q); congruence.
Qed.

Lemma nonzero_false : forall n Q, (forall i j, (i < n)%nat -> (j < n)%nat -> Q i j = 0) -> nonzero n Q = false.
Proof.
  intros n Q H. unfold nonzero. apply not_true_iff_false. rewrite existsb_exists. intros (i & Hi & E).
  rewrite existsb_exists in E. destruct E as (j & Hj & E). apply in_seq in Hi. apply in_seq in Hj.
  rewrite H in E by lia. destruct (Req_EM_T 0 0); [discriminate|congruence].
Qed.

Lemma sample_exact : forall di dr n Q old s u dT additive,
  (additive = true -> exists M, Q = Some M /\ forall i j, (i < n)%nat -> (j < n)%nat -> M i j = 0) ->
  sample step di dr n Q old s u dT additive false = omap fst (step old s u dT false).
Proof.
  intros di dr n Q old s u dT additive H. unfold sample, omap. destruct (step old s u dT false) as [r|e|]; cbn [obind]; try reflexivity.
  destruct additive; [|reflexivity]. destruct (H eq_refl) as (M & -> & Z0). rewrite nonzero_false by exact Z0. reflexivity.
Qed.
End S.
