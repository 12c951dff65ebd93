From Coq Require Import Reals List Bool Lra Lia String.
From Coquelicot Require Import Coquelicot.
From Verif Require Import Base ListUtil AngleModel AngleProofs SensorModel SensorProofs DriveModel AmpModel AmpSpec.
Import ListNotations.
Local Open Scope R_scope.

(** ** Objects *)
Definition clean (b : bool) (o : ameas) : Prop :=
  if b then a_mean o = Some 10 /\ a_cov o = Some 2 else a_mean o = None /\ a_cov o = None.

Lemma exec_clean : forall o bs m m', Forall2 clean bs m -> exec m o = Val m' -> Forall2 clean (bs ++ origin o) m'.
Proof.
  intros o bs m m' F H. destruct o as [z Sx|i|i j|i a]; cbn [exec origin] in *.
  - injection H as <-. apply Forall2_app; [exact F|]. constructor; [|constructor]. split; reflexivity.
  - destruct (nth_error m i) eqn:E; cbn in H; [|discriminate]. injection H as <-.
    apply Forall2_app; [exact F|]. constructor; [|constructor]. split; reflexivity.
  - destruct (nth_error m i) as [x|] eqn:E; cbn in H; [|discriminate]. destruct (nth_error m j) as [y|]; cbn in H; [|discriminate].
    injection H as <-. rewrite app_nil_r. clear j. revert i E. induction F as [|b o bs m C F IH]; intros [|i] E; try discriminate.
    + injection E as ->. cbn. constructor; [|exact F]. destruct b; cbn in *; exact C.
    + cbn. constructor; [exact C|]. apply IH. exact E.
  - destruct (nth_error m i) as [x|] eqn:E; cbn in H; [|discriminate].
    injection H as <-. rewrite app_nil_r. revert i E. induction F as [|b o bs m C F IH]; intros [|i] E; try discriminate.
    + injection E as ->. cbn. constructor; [|exact F]. destruct b; cbn in *; exact C.
    + cbn. constructor; [exact C|]. apply IH. exact E.
Qed.

Lemma run_clean : forall p bs m m', Forall2 clean bs m -> run m p = Val m' -> Forall2 clean (bs ++ origins p) m'.
Proof.
  induction p as [|o p IH]; intros bs m m' F H; cbn in H.
  - injection H as <-. cbn. rewrite app_nil_r. exact F.
  - destruct (exec m o) as [m1| |] eqn:E; cbn in H; try discriminate.
    unfold origins. cbn [flat_map]. rewrite app_assoc. eapply IH; [|exact H]. eapply exec_clean; eassumption.
Qed.

Lemma forall2_nth : forall (A B : Type) (P : A -> B -> Prop) l m i a b, Forall2 P l m -> nth_error l i = Some a -> nth_error m i = Some b -> P a b.
Proof.
  intros A B P l m i a b F. revert i. induction F as [|x y l m H F IH]; intros [|i] E1 E2; cbn in *; try discriminate.
  - injection E1 as <-. injection E2 as <-. exact H.
  - exact (IH i E1 E2).
Qed.

Lemma forall2_len : forall (A B : Type) (P : A -> B -> Prop) l m, Forall2 P l m -> List.length l = List.length m.
Proof. intros A B P l m F. induction F; cbn; congruence. Qed.

Lemma likelihood_new : forall spatial e x, a_mean e = Some 10 -> a_cov e = Some 2 ->
  likelihood spatial e x = Val (spatial (a_z e) (a_S e) (a_z x) * normal 10 2 (a_amp x)).
Proof.
  intros spatial e x H1 H2. unfold likelihood. rewrite H1, H2. cbn [of_option obind]. f_equal. unfold normal.
  replace (- (1 / 2) * (a_amp x - 10) ^ 2 / 2) with (- (a_amp x - 10) ^ 2 / (2 * 2)) by field. unfold Rdiv. ring.
Qed.

(** Likelihoods computed by objects of a program. *)
Lemma program_likelihood : forall spatial p m i j e x b, run [] p = Val m -> nth_error m i = Some e -> nth_error m j = Some x ->
  nth_error (origins p) i = Some b ->
  likelihood spatial e x = if b then Val (spatial (a_z e) (a_S e) (a_z x) * normal 10 2 (a_amp x)) else UB Uninit.
Proof.
  intros spatial p m i j e x b H Hi Hj Hb. pose proof (run_clean p [] [] m ltac:(constructor) H) as F.
  pose proof (forall2_nth _ _ _ _ _ _ _ _ F Hb Hi) as C. destruct b; destruct C as [C1 C2].
  - apply likelihood_new; assumption.
  - unfold likelihood. rewrite C1. reflexivity.
Qed.

Lemma program_origins : forall p m, run [] p = Val m -> List.length (origins p) = List.length m.
Proof. intros p m H. apply (forall2_len _ _ _ _ _ (run_clean p [] [] m ltac:(constructor) H)). Qed.

Lemma nth_map_val : forall (m : list ameas) i x d, nth_error m i = Some x -> nth i (map value m) d = value x.
Proof. intros m. induction m as [|y m IH]; intros [|i] x d H; cbn in *; try discriminate; [injection H as ->; reflexivity|apply IH; exact H]. Qed.

Lemma map_upd : forall (A B : Type) (f : A -> B) l i x, map f (upd l i x) = upd (map f l) i (f x).
Proof. intros A B f l. induction l as [|y l IH]; intros [|i] x; cbn; try reflexivity. rewrite IH. reflexivity. Qed.

Lemma run_value : forall p m m', run m p = Val m' -> map value m' = fold_left exec_value p (map value m).
Proof.
  induction p as [|o p IH]; intros m m' H; cbn in H.
  - injection H as <-. reflexivity.
  - destruct (exec m o) as [m1| |] eqn:E; cbn in H; try discriminate.
    rewrite (IH m1 m' H). cbn [fold_left]. f_equal. destruct o as [z Sx|i|i j|i a]; cbn [exec exec_value] in *.
    + injection E as <-. rewrite map_app. reflexivity.
    + destruct (nth_error m i) as [x|] eqn:Ei; cbn in E; [|discriminate]. injection E as <-. rewrite map_app, (nth_map_val _ _ _ _ Ei). reflexivity.
    + destruct (nth_error m i) as [x|] eqn:Ei; cbn in E; [|discriminate]. destruct (nth_error m j) as [y|] eqn:Ej; cbn in E; [|discriminate].
      injection E as <-. rewrite map_upd, (nth_map_val _ _ _ _ Ej). reflexivity.
    + destruct (nth_error m i) as [x|] eqn:Ei; cbn in E; [|discriminate]. injection E as <-. rewrite map_upd, (nth_map_val _ _ _ _ Ei). reflexivity.
Qed.

(** ** Evidence *)
Lemma normal_pos : forall m v a, 0 < v -> 0 < normal m v a.
Proof.
  intros m v a H. unfold normal. apply Rdiv_lt_0_compat; [apply exp_pos|]. apply sqrt_lt_R0.
  pose proof PI_RGT_0. nra.
Qed.

Lemma evidence_form : forall c a, 0 < s_clutter c ->
  normal 10 2 a / clutter_amp c a = exp (- (a - 10) ^ 2 / 4 + a * (7777 / 10000)) / (sqrt (2 * PI * 2) * (s_clutter c * (7777 / 10000))).
Proof.
  intros c a H. unfold normal, clutter_amp. rewrite exp_plus. replace (2 * 2) with 4 by ring.
  replace (- a * (7777 / 10000)) with (- (a * (7777 / 10000))) by ring. rewrite exp_Ropp.
  assert (0 < sqrt (2 * PI * 2)) by (apply sqrt_lt_R0; pose proof PI_RGT_0; lra).
  pose proof (exp_pos (a * (7777 / 10000))). field. repeat split; lra.
Qed.

Lemma evidence_order : forall c a b, 0 < s_clutter c -> a < b ->
  (normal 10 2 a / clutter_amp c a < normal 10 2 b / clutter_amp c b <-> a + b < 2 * (10 + 2 * (7777 / 10000))).
Proof.
  intros c a b H L. rewrite !evidence_form by exact H.
  assert (D : 0 < sqrt (2 * PI * 2) * (s_clutter c * (7777 / 10000))).
  { apply Rmult_lt_0_compat; [apply sqrt_lt_R0; pose proof PI_RGT_0; lra|lra]. }
  assert (X : - (b - 10) ^ 2 / 4 + b * (7777 / 10000) - (- (a - 10) ^ 2 / 4 + a * (7777 / 10000)) =
              (b - a) * (2 * (10 + 2 * (7777 / 10000)) - (a + b)) / 4) by field.
  split; intro K.
  - apply Rmult_lt_reg_r in K; [|apply Rinv_0_lt_compat; exact D]. apply exp_lt_inv in K. nra.
  - apply Rmult_lt_compat_r; [apply Rinv_0_lt_compat; exact D|]. apply exp_increasing. nra.
Qed.

(** The same with the likelihoods the filter computes. *)
Lemma filter_evidence : forall spatial c z Sx x a b l1 l2, 0 < s_clutter c -> 0 < spatial z Sx x -> a < b ->
  likelihood spatial (construct z Sx) (set_amp (construct x Sx) a) = Val l1 ->
  likelihood spatial (construct z Sx) (set_amp (construct x Sx) b) = Val l2 ->
  (l1 / clutter_amp c a < l2 / clutter_amp c b <-> a + b < 2 * (10 + 2 * (7777 / 10000))).
Proof.
  intros spatial c z Sx x a b l1 l2 H P L H1 H2.
  rewrite likelihood_new in H1 by reflexivity. rewrite likelihood_new in H2 by reflexivity. cbn in H1, H2.
  injection H1 as <-. injection H2 as <-. rewrite <- (evidence_order c a b H L). unfold Rdiv. rewrite !Rmult_assoc. split; intro K.
  - apply Rmult_lt_reg_l in K; assumption.
  - apply Rmult_lt_compat_l; assumption.
Qed.

(** ** Simulated amplitudes *)
Lemma draw_amp_ok : forall fuel s p a q, draw_amp fuel s p = Val (a, q) ->
  exists n, q = S (p + n) /\ a = 10 + s (p + n)%nat * sqrt 2 /\ 0 <= a /\ forall i, (i < n)%nat -> 10 + s (p + i)%nat * sqrt 2 < 0.
Proof.
  induction fuel as [|f IH]; intros s p a q H; cbn in H.
  - destruct (Rlt_dec (10 + s p * sqrt 2) 0) as [L|L]; [discriminate|]. injection H as <- <-. exists 0%nat. rewrite Nat.add_0_r.
    split; [reflexivity|]. split; [reflexivity|]. split; [lra|]. intros i Hi. lia.
  - destruct (Rlt_dec (10 + s p * sqrt 2) 0) as [L|L].
    + destruct (IH _ _ _ _ H) as (n & A & B & C & D). exists (S n). rewrite <- Nat.add_succ_comm. split; [exact A|]. split; [exact B|].
      split; [exact C|]. intros [|i] Hi; [rewrite Nat.add_0_r; exact L|]. rewrite <- Nat.add_succ_comm. apply D. lia.
    + injection H as <- <-. exists 0%nat. rewrite Nat.add_0_r.
      split; [reflexivity|]. split; [reflexivity|]. split; [lra|]. intros i Hi. lia.
Qed.

Lemma draw_amp_ends : forall n s p, 0 <= 10 + s (p + n)%nat * sqrt 2 -> exists r, draw_amp n s p = Val r.
Proof.
  induction n as [|n IH]; intros s p H; cbn.
  - rewrite Nat.add_0_r in H. destruct (Rlt_dec (10 + s p * sqrt 2) 0); [lra|]. eexists. reflexivity.
  - destruct (Rlt_dec (10 + s p * sqrt 2) 0); [|eexists; reflexivity]. apply IH. rewrite Nat.add_succ_comm. exact H.
Qed.

Lemma normal_cont : forall a, continuous (normal 10 2) a.
Proof.
  intro a. apply (ex_derive_continuous (normal 10 2)). unfold normal. auto_derive. exact I.
Qed.

(** The density the filter assumes has mass where nothing is simulated. *)
Lemma truncated : 0 < RInt (normal 10 2) (-1) 0.
Proof. apply RInt_gt_0; [lra| |]; intros x _; [apply normal_pos; lra|apply normal_cont]. Qed.

(** The amplitudes of false alarms are exponential. *)
Lemma false_event : forall e x, false_amp e <= x <-> e <= 7777 / 10000 * x.
Proof. intros e x. unfold false_amp. split; intro H; [|]; nra. Qed.

Lemma false_density : forall c x, s_clutter c <> 0 ->
  is_derive (fun x => exp_cdf (7777 / 10000 * x)) x (clutter_amp c x / s_clutter c).
Proof.
  intros c x H. unfold exp_cdf, clutter_amp. auto_derive; [exact I|]. replace (- (7777 / 10000 * x)) with (- x * (7777 / 10000)) by ring. field. exact H.
Qed.

(** ** Export *)
Lemma export_val : forall l, export_meas l = Val (map (fun m => [m_t m; m_r m; m_b m]) l).
Proof. unfold export_meas. induction l as [|m l IH]; cbn in *; [reflexivity|]. rewrite IH. reflexivity. Qed.

Lemma export_same : forall l l', export_meas l = export_meas l' <-> map (fun m => (m_t m, m_r m, m_b m)) l = map (fun m => (m_t m, m_r m, m_b m)) l'.
Proof.
  intros l l'. rewrite !export_val. split; intro H.
  - assert (E : map (fun m => [m_t m; m_r m; m_b m]) l = map (fun m => [m_t m; m_r m; m_b m]) l') by (injection H; intro K; exact K).
    clear H. revert l' E. induction l as [|m l IH]; intros [|m' l'] E; cbn in *; try discriminate; [reflexivity|].
    injection E as A B C D. rewrite A, B, C, (IH l' D). reflexivity.
  - f_equal. revert l' H. induction l as [|m l IH]; intros [|m' l'] E; cbn in *; try discriminate; [reflexivity|].
    injection E as A B C D. rewrite A, B, C, (IH l' D). reflexivity.
Qed.

(** ** Sampling *)
Lemma sample_plain : forall chol c Rn p PS l LS s k, exists n e, (forall fuel, (n < fuel)%nat ->
    sample_rb chol fuel c Rn p PS l LS true false false s k = Val (if x_ok e
      then Sampled true (fst (x_mean e) + noise chol 2 Rn s k 0%nat, snd (x_mean e) + noise chol 2 Rn s k 1%nat) (Some Rn) (k + 2)
      else Sampled false (x_mean e) (option_map l_cov (x_lin e)) k)) /\
  fst (x_mean e) = distance p l /\ - PI <= snd (x_mean e) <= PI /\ (x_ok e = true <-> s_min c <= distance p l <= s_max c).
Proof.
  intros chol c Rn p PS l LS s k. destruct (measure_rb_ok c p PS l LS Rn) as (n & e & He & Hr & Hb & Hok & _).
  exists n, e. split; [|split; [exact Hr|split; [exact Hb|exact Hok]]].
  intros fuel Hf. unfold sample_rb. rewrite (He fuel Hf). cbn [obind]. destruct (x_ok e); reflexivity.
Qed.

(** Everything sample leaves, for all flags. *)
Lemma sample_all : forall chol c Rn p PS l LS (useZ useP useL : bool) s k,
  let k1 := if useP then (k + 3)%nat else k in
  let k2 := if useL then (k1 + 2)%nat else k1 in
  let r := distance (used_pose chol p PS useP s k) (used_lmk chol l LS useL s k1) in
  exists n z, (forall fuel, (n < fuel)%nat -> sample_rb chol fuel c Rn p PS l LS useZ useP useL s k = Val z) /\
    (z_ok z = true <-> s_min c <= r <= s_max c) /\
    (z_ok z = true -> useZ = true -> z_cov z = Some Rn /\ z_next z = (k2 + 2)%nat /\
       fst (z_mean z) = r + (chol 2%nat Rn 0%nat 0%nat * s k2 + chol 2%nat Rn 0%nat 1%nat * s (k2 + 1)%nat)) /\
    (useZ = false -> z_next z = k2 /\ fst (z_mean z) = r /\ - PI <= snd (z_mean z) <= PI).
Proof.
  intros chol c Rn p PS l LS useZ useP useL s k k1 k2 r.
  destruct (measure_rb_ok c (used_pose chol p PS useP s k) PS (used_lmk chol l LS useL s k1) LS Rn) as (n & e & He & Hr & Hb & Hok & _).
  exists n. exists (if x_ok e && useZ then Sampled true (fst (x_mean e) + noise chol 2 Rn s k2 0%nat, snd (x_mean e) + noise chol 2 Rn s k2 1%nat) (Some Rn) (k2 + 2)
       else Sampled (x_ok e) (x_mean e) (option_map l_cov (x_lin e)) k2).
  split; [|split; [|split]].
  - intros fuel Hf. unfold sample_rb. fold k1. fold k2. specialize (He fuel Hf). unfold used_pose, used_lmk in He. unfold noise at 1 2 3 4 5. unfold mapp.
    rewrite He. cbn [obind]. destruct (x_ok e && useZ); reflexivity.
  - unfold r, distance. rewrite <- Hok. destruct (x_ok e); destruct useZ; cbn; tauto.
  - intros A ->. destruct (x_ok e); cbn in *; [|discriminate]. split; [reflexivity|]. split; [reflexivity|]. rewrite Hr. unfold r, distance, noise, mapp. cbn. rewrite Nat.add_0_r. ring.
  - intros ->. rewrite andb_false_r. cbn. split; [reflexivity|]. split; [exact Hr|exact Hb].
Qed.

Lemma noise_diag : forall chol a b s k, chol_diag chol -> 0 <= a -> 0 <= b ->
  noise chol 2 (diag2 a b) s k 0%nat = sqrt a * s k /\ noise chol 2 (diag2 a b) s k 1%nat = sqrt b * s (k + 1)%nat.
Proof.
  intros chol a b s k H A B. unfold noise, mapp. rewrite (H a b A B). unfold dot, diag2, mx_of. cbn. rewrite Nat.add_0_r. split; ring.
Qed.

(** What the simulator stores. *)
Lemma detect_iff : forall chol c a b p PS l LS s k u, chol_diag chol -> 0 <= a -> 0 <= b ->
  exists n (o : option (R * R)), (forall fuel, (n < fuel)%nat -> detect chol fuel c (diag2 a b) p PS l LS s k u = Val o) /\
    (o <> None <-> (s_min c <= distance p l <= s_max c) /\ (s_min c <= distance p l + sqrt a * s k <= s_max c) /\ u <= s_pd c) /\
    (forall z, o = Some z -> fst z = distance p l + sqrt a * s k /\ s_min c <= fst z <= s_max c /\ - PI <= snd z - sqrt b * s (k + 1)%nat <= PI).
Proof.
  intros chol c a b p PS l LS s k u H A B. destruct (sample_plain chol c (diag2 a b) p PS l LS s k) as (n & e & He & Hr & Hb & Hok).
  destruct (noise_diag chol a b s k H A B) as [N0 N1]. exists n. eexists. split; [intros fuel Hf; unfold detect; rewrite (He fuel Hf); cbn [obind]; reflexivity|].
  rewrite N0, N1. destruct (x_ok e) eqn:Ok; cbn [z_ok z_mean fst snd andb].
  - rewrite Hr. destruct (leb (distance p l + sqrt a * s k) (s_max c)) eqn:L1; cbn [andb].
    + destruct (leb (s_min c) (distance p l + sqrt a * s k)) eqn:L2; cbn [andb].
      * destruct (leb u (s_pd c)) eqn:L3.
        -- apply leb_iff in L1, L2, L3. split; [split; [|intros _; discriminate]; intros _; split; [apply Hok; reflexivity|split; [split|]; assumption]|].
           intros z E. injection E as <-. cbn. split; [reflexivity|]. split; [split; assumption|lra].
        -- split; [|intros z E; discriminate]. split; [intro K; contradiction|]. intros (_ & _ & K). apply leb_iff in K. congruence.
      * split; [|intros z E; discriminate]. split; [intro K; contradiction|]. intros (_ & (K & _) & _). apply leb_iff in K. congruence.
    + split; [|intros z E; discriminate]. split; [intro K; contradiction|]. intros (_ & (_ & K) & _). apply leb_iff in K. congruence.
  - split; [|intros z E; discriminate]. split; [intro K; contradiction|]. intros (K & _). apply Hok in K. discriminate.
Qed.

(** Noise can move the range beyond the limit and the bearing beyond half a turn. *)
Definition far_cfg : scfg := SCfg 1 0 10 1 0.
Lemma distance_axis : forall x, 0 <= x -> distance (P2 0 0 0) (x, 0) = x.
Proof. intros x H. unfold distance. cbn. replace ((x - 0) * ((x - 0) * 1) + (0 - 0) * ((0 - 0) * 1)) with (x * x) by ring. apply sqrt_square. exact H. Qed.

Lemma beyond : forall chol, chol_diag chol -> exists n z, (forall fuel, (n < fuel)%nat ->
    sample_rb chol fuel far_cfg (diag2 1 1) (P2 0 0 0) (fun _ _ => 0) (10, 0) (fun _ _ => 0) true false false (fun _ => 9) 0 = Val z) /\
  z_ok z = true /\ s_max far_cfg < fst (z_mean z) /\ PI < snd (z_mean z).
Proof.
  intros chol H. destruct (sample_plain chol far_cfg (diag2 1 1) (P2 0 0 0) (fun _ _ => 0) (10, 0) (fun _ _ => 0) (fun _ => 9) 0) as (n & e & He & Hr & Hb & Hok).
  rewrite distance_axis in * by lra. cbn [s_max s_min far_cfg] in *.
  destruct (noise_diag chol 1 1 (fun _ => 9) 0%nat H ltac:(lra) ltac:(lra)) as [N0 N1]. rewrite sqrt_1 in *.
  assert (K : x_ok e = true) by (apply Hok; lra). rewrite K in He.
  exists n. eexists. split; [exact He|]. cbn [z_ok z_mean fst snd]. rewrite N0, N1, Hr. pose proof PI_4. split; [reflexivity|]. split; lra.
Qed.

Lemma detect_misses : forall chol, chol_diag chol -> exists n, forall fuel, (n < fuel)%nat ->
  detect chol fuel far_cfg (diag2 1 1) (P2 0 0 0) (fun _ _ => 0) (10, 0) (fun _ _ => 0) (fun _ => 9) 0 0 = Val None.
Proof.
  intros chol H. destruct (detect_iff chol far_cfg 1 1 (P2 0 0 0) (fun _ _ => 0) (10, 0) (fun _ _ => 0) (fun _ => 9) 0 0 H ltac:(lra) ltac:(lra)) as (n & o & Ho & Hi & _).
  exists n. intros fuel Hf. rewrite (Ho fuel Hf). destruct o as [z|]; [|reflexivity]. exfalso.
  destruct Hi as [Hi _]. destruct (Hi ltac:(discriminate)) as (_ & K & _). rewrite distance_axis, sqrt_1 in K by lra. cbn [s_max s_min far_cfg] in K. lra.
Qed.

Lemma detect_turned : forall chol, chol_diag chol -> exists n z, (forall fuel, (n < fuel)%nat ->
  detect chol fuel far_cfg (diag2 1 1) (P2 0 0 0) (fun _ _ => 0) (5, 0) (fun _ _ => 0) (fun i => match i with O => 0 | _ => 9 end) 0 0 = Val (Some z)) /\ PI < snd z.
Proof.
  intros chol H. destruct (detect_iff chol far_cfg 1 1 (P2 0 0 0) (fun _ _ => 0) (5, 0) (fun _ _ => 0) (fun i => match i with O => 0 | _ => 9 end) 0 0 H ltac:(lra) ltac:(lra)) as (n & o & Ho & Hi & Hz).
  rewrite distance_axis, sqrt_1 in * by lra. cbn [s_min s_max s_pd far_cfg] in *.
  destruct o as [z|]; [|exfalso; apply (proj2 Hi); [lra|reflexivity]]. exists n, z. split; [exact Ho|].
  destruct (Hz z eq_refl) as (_ & _ & K). cbn in K. pose proof PI_4. lra.
Qed.
