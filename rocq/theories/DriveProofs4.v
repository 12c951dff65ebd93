(** Proofs for C159-C163: iterations of the swarm drivers, the answer of the solver, noise in space. *)
From Coq Require Import Reals ZArith List Bool Arith Lia Lra Psatz.
From Verif Require Import Base ListUtil SensorModel OdometryModel SensorProofs DriveModel DriveSpec DriveProofs.
Import ListNotations.
Local Open Scope Z_scope.

(** The iterations in which the particles are moved. *)
Definition moves (l : list act) : list Z := flat_map (fun a => match a with Move i => [i] | _ => [] end) l.
Lemma loop_val : forall go body stop, (forall i, go i = (i <? stop)) -> forall fuel i, Z.of_nat fuel > stop - i -> (0 < fuel)%nat ->
  act_loop go body fuel i = Val (flat_map body (count_up i (Z.to_nat (stop - i)))).
Proof.
  intros go body stop Hg. induction fuel as [|f IH]; intros i Hf H0; [lia|]. cbn [act_loop]. rewrite Hg.
  destruct (Z.ltb_spec i stop) as [L|L].
  - rewrite IH by lia. cbn [obind]. replace (Z.to_nat (stop - i)) with (S (Z.to_nat (stop - (i + 1)))) by lia. reflexivity.
  - replace (Z.to_nat (stop - i)) with 0%nat by lia. reflexivity.
Qed.
Lemma moves_body : forall (body : Z -> list act) is, (forall i, moves (body i) = [i]) -> moves (flat_map body is) = is.
Proof.
  intros body is H. induction is as [|i is IH]; [reflexivity|]. cbn [flat_map]. unfold moves in *. rewrite flat_map_app, IH, H. reflexivity.
Qed.
Lemma body_1d_moves : forall e i, moves (body_1d e i) = [i].
Proof. intros e i. unfold body_1d. destruct (opt_due e i); reflexivity. Qed.
Lemma body_orb_moves : forall e i, moves (body_orb e i) = [i].
Proof. intros e i. unfold body_orb. destruct (opt_due e i); reflexivity. Qed.

Lemma run_pso_moves : forall maxiter every fuel, (Z.to_nat maxiter < fuel)%nat ->
  exists l, run_pso maxiter every fuel = Val l /\ moves l = count_up 1 (Z.to_nat (maxiter - 1)).
Proof.
  intros m e fuel Hf. unfold run_pso. rewrite (loop_val _ _ m) by (intros; try reflexivity; lia). cbn [obind]. eexists. split; [reflexivity|].
  change (moves (Log 0 :: ?x)) with (moves x). apply moves_body. apply body_1d_moves.
Qed.
Lemma run_orb_moves : forall maxiter every fuel, (Z.to_nat maxiter < fuel)%nat ->
  exists l, run_orb maxiter every fuel = Val l /\ moves l = count_up 1 (Z.to_nat maxiter).
Proof.
  intros m e fuel Hf. unfold run_orb. rewrite (loop_val _ _ (m + 1)); [|intro i; destruct (Z.leb_spec i m), (Z.ltb_spec i (m + 1)); reflexivity || lia|lia|lia].
  cbn [obind]. eexists. split; [reflexivity|]. change (moves (Evaluate 0 :: Log 0 :: ?x)) with (moves x).
  replace (m + 1 - 1) with m by lia. apply moves_body. apply body_orb_moves.
Qed.

(** ** Rows *)
Section Rows.
Context {T L : Type}.
Variable lik : T -> L.
Variables opt move : Z -> T -> T.
Variable every : Z.
Notation perform := (perform lik opt move).
Notation asked := (asked opt every).

Lemma due_asked : forall i t, 1 <= i -> (if opt_due every i then opt i t else t) = asked i t.
Proof.
  intros i t Hi. unfold opt_due, DriveSpec.asked. destruct (Z.ltb_spec 0 every); cbn [andb]; [|reflexivity].
  rewrite Z.rem_mod_nonneg by lia. reflexivity.
Qed.
Definition one (s : pstate) (i : Z) : pstate :=
  let p := asked i (ps_sol s) in PState (move i p) (Some (lik p)) (ps_rows s ++ [(i, Some (lik p), move i p)]).
Lemma body_1d_one : forall s i, 1 <= i -> fold_left perform (body_1d every i) s = one s i.
Proof.
  intros [sol l rows] i Hi. unfold one. cbn [ps_sol ps_rows]. rewrite <- due_asked by exact Hi. unfold body_1d. destruct (opt_due every i); reflexivity.
Qed.
Lemma body_orb_one : forall s i, 1 <= i -> fold_left perform (body_orb every i) s = one s i.
Proof.
  intros [sol l rows] i Hi. unfold one. cbn [ps_sol ps_rows]. rewrite <- due_asked by exact Hi. unfold body_orb. destruct (opt_due every i); reflexivity.
Qed.
Lemma after_snoc : forall is i t, after opt move every (is ++ [i]) t = move i (asked i (after opt move every is t)).
Proof. intros is i t. unfold after. rewrite fold_left_app. reflexivity. Qed.
Lemma ones : forall (body : Z -> list act), (forall s i, 1 <= i -> fold_left perform (body i) s = one s i) ->
  forall n t0 l0 rows, exists l, fold_left perform (flat_map body (count_up 1 n)) (PState t0 l0 rows) =
    PState (after opt move every (count_up 1 n) t0) l (rows ++ map (row_of lik opt move every t0) (seq 0 n)).
Proof.
  intros body Hb n t0 l0 rows.
  assert (Cs : forall n a, count_up a (S n) = count_up a n ++ [a + Z.of_nat n]).
  { induction n0 as [|m IH]; intro a; [cbn; f_equal; lia|]. change (count_up a (S (S m))) with (a :: count_up (a + 1) (S m)). rewrite IH.
    cbn [count_up app]. do 3 f_equal. lia. }
  induction n as [|n IH].
  - exists l0. cbn. rewrite app_nil_r. reflexivity.
  - destruct IH as [l IH]. rewrite Cs, flat_map_app, fold_left_app, IH. cbn [flat_map]. rewrite app_nil_r, Hb by lia.
    unfold one. cbn [ps_sol ps_rows]. eexists. rewrite after_snoc.
    rewrite seq_S, map_app. cbn [map plus]. unfold row_of at 2. replace (1 + Z.of_nat n) with (Z.of_nat (S n)) by lia. rewrite app_assoc. reflexivity.
Qed.
Lemma pso_rows : forall maxiter fuel t0, (Z.to_nat maxiter < fuel)%nat -> exists l, run_pso maxiter every fuel = Val l /\
  rows_of lik opt move l t0 = (0, None, t0) :: map (row_of lik opt move every t0) (seq 0 (Z.to_nat (maxiter - 1))).
Proof.
  intros m fuel t0 Hf. unfold run_pso. rewrite (loop_val _ _ m) by (intros; try reflexivity; lia). cbn [obind]. eexists. split; [reflexivity|].
  unfold rows_of. cbn [fold_left DriveModel.perform ps_sol ps_lik ps_rows app].
  destruct (ones (body_1d every) body_1d_one (Z.to_nat (m - 1)) t0 None [(0, None, t0)]) as [l E]. rewrite E. reflexivity.
Qed.
Lemma orb_rows : forall maxiter fuel t0, (Z.to_nat maxiter < fuel)%nat -> exists l, run_orb maxiter every fuel = Val l /\
  rows_of lik opt move l t0 = (0, Some (lik t0), t0) :: map (row_of lik opt move every t0) (seq 0 (Z.to_nat maxiter)).
Proof.
  intros m fuel t0 Hf. unfold run_orb. rewrite (loop_val _ _ (m + 1)); [|intro i; destruct (Z.leb_spec i m), (Z.ltb_spec i (m + 1)); reflexivity || lia|lia|lia].
  cbn [obind]. eexists. split; [reflexivity|]. replace (m + 1 - 1) with m by lia.
  unfold rows_of. cbn [fold_left DriveModel.perform ps_sol ps_lik ps_rows app].
  destruct (ones (body_orb every) body_orb_one (Z.to_nat m) t0 (Some (lik t0)) [(0, Some (lik t0), t0)]) as [l E]. rewrite E. reflexivity.
Qed.
End Rows.

(** ** The answer of the solver *)
Local Open Scope R_scope.
Notation vadd := vsum.
Lemma vadd_diff : forall p prev, length p = length prev -> vadd prev (map (fun q => fst q - snd q) (combine p prev)) = p.
Proof.
  induction p as [|x p IH]; intros [|y prev] H; try discriminate; [reflexivity|]. unfold vsum in *. cbn [combine map fst snd]. f_equal; [ring|]. apply IH. cbn in H. lia.
Qed.
Lemma write_back_path : forall P n a prev, (0 < P)%nat -> length a = (n * P)%nat -> length prev = P ->
  exists ps us, write_back P a prev n = Val (ps, us) /\ concat ps = a /\ length ps = n /\ Forall (fun p => length p = P) ps /\ path vadd prev us = ps.
Proof.
  intros P n. induction n as [|n IH]; intros a prev HP Ha Hp.
  - exists [], []. cbn in *. destruct a; [|discriminate]. repeat split; constructor.
  - cbn [write_back]. destruct (Nat.leb_spec P (length a)) as [L|L]; [|cbn in Ha; lia].
    assert (Lp : length (firstn P a) = P) by (rewrite firstn_length; lia).
    destruct (IH (skipn P a) (firstn P a) HP) as (ps & us & E & E1 & E2 & E3 & E4); [rewrite skipn_length; cbn in Ha; lia|exact Lp|].
    rewrite E. cbn [obind fst snd]. eexists. eexists. split; [reflexivity|]. cbn [concat length path]. rewrite E1, firstn_skipn, E2.
    rewrite vadd_diff by lia. rewrite E4. repeat split. constructor; assumption.
Qed.

Lemma cos_one : forall t, cos t = 1 -> same_direction t 0.
Proof.
  intros t H. assert (S0 : sin t = 0). { pose proof (cs2 t) as C. rewrite H in C. nra. }
  apply same_angle; [rewrite cos_0; exact H|rewrite sin_0; exact S0].
Qed.
Lemma diff_moved : forall a b, moved_by (O2 (p_x b - p_x a) (p_y b - p_y a) (p_t b - p_t a)) a b <->
  (p_x b = p_x a /\ p_y b = p_y a) \/ same_direction (p_t a) 0.
Proof.
  intros a b. unfold moved_by. cbn [o_x o_y o_t]. set (dx := p_x b - p_x a). set (dy := p_y b - p_y a).
  pose proof (cs2 (p_t a)) as C. split.
  - intros (H1 & H2 & _).
    assert (A : (1 - cos (p_t a)) * (dx ^ 2 + dy ^ 2) = 0).
    { assert (E1 : dx - cos (p_t a) * dx = - sin (p_t a) * dy) by (unfold dx, dy in *; lra).
      assert (E2 : dy - cos (p_t a) * dy = sin (p_t a) * dx) by (unfold dx, dy in *; lra).
      transitivity (dx * (dx - cos (p_t a) * dx) + dy * (dy - cos (p_t a) * dy)); [ring|]. rewrite E1, E2. ring. }
    apply Rmult_integral in A. destruct A as [A|A].
    + right. apply cos_one. lra.
    + left. assert (dx = 0 /\ dy = 0) as [D1 D2] by nra. unfold dx, dy in *. lra.
  - intro H. assert (Hd : same_direction (p_t b) (p_t a + (p_t b - p_t a))) by (exists 0%Z; simpl; ring).
    destruct H as [[H1 H2]|[k H]].
    + unfold dx, dy. rewrite H1, H2. split; [ring|]. split; [ring|exact Hd].
    + assert (Cc : cos (p_t a) = 1) by (rewrite H, cos_turns; apply cos_0). assert (Ss : sin (p_t a) = 0) by (rewrite H, sin_turns; apply sin_0).
      rewrite Cc, Ss. unfold dx, dy. split; [ring|]. split; [ring|exact Hd].
Qed.

(** ** The first pose *)
Lemma move_traj_nth : forall w r t b g i j x, nth_error t j = Some (x, 0) -> (exists v, nth_error b j = Some (x, v)) ->
  (match g with Some l => exists v, nth_error l j = Some (x, v) | None => True end) -> nth_error (move_traj w r i t b g) j = Some (x, 0).
Proof.
  intros w r t. induction t as [|[y vy] t IH]; intros b g i j x Ht Hb Hg; [destruct j; discriminate|].
  destruct b as [|[bx bv] b]; [destruct Hb as [v Hb]; destruct j; discriminate|]. destruct j as [|j]; cbn [nth_error move_traj] in *.
  - injection Ht as -> ->. destruct Hb as [v Hb]. injection Hb as -> ->. destruct g as [[|[gx gv] g]|].
    + destruct Hg as [v' Hg]. discriminate.
    + destruct Hg as [v' Hg]. injection Hg as -> ->. unfold move_comp. f_equal. f_equal; ring.
    + unfold move_comp. f_equal. f_equal; ring.
  - apply IH; [exact Ht|exact Hb|]. destruct g as [[|[gx gv] g]|]; [destruct Hg as [v' Hg]; discriminate|exact Hg|exact I].
Qed.
Lemma anchored : forall w (init : list (R * R) -> Prop) j x, (forall t, init t -> nth_error t j = Some (x, 0)) ->
  forall t, roams (fun r t b g => move_traj w r 0 t b g) init t -> nth_error t j = Some (x, 0).
Proof.
  intros w init j x H t Ht. induction Ht as [t Ht|r t b Ht IHt Hb IHb|r t b g Ht IHt Hb IHb Hg IHg].
  - apply H. exact Ht.
  - apply move_traj_nth; [exact IHt|eauto|exact I].
  - apply move_traj_nth; [exact IHt|eauto|eauto].
Qed.

(** ** Noise in space *)
Lemma noise_iff : forall v infl dt, dt <> 0 -> infl <> 0 ->
  (filter_noise v infl dt = map (Rmult infl) (sim_noise v dt) <-> n_qx v = n_qw v /\ n_qy v = n_qw v /\ n_qz v = n_qw v).
Proof.
  intros v infl dt Hd Hi. unfold filter_noise, sim_noise. cbn [map].
  assert (C : forall a b, a * (infl * dt * dt) = infl * (b * dt * dt) <-> a = b).
  { intros a b. split; [|intros ->; ring]. intro E. apply (Rmult_eq_reg_r (infl * dt * dt)).
    - rewrite E. ring.
    - repeat apply Rmult_integral_contrapositive_currified; assumption. }
  split.
  - intro E. injection E as E1 E2 E3 E4 E5 E6 E7. rewrite C in *. repeat split; congruence.
  - intros (H1 & H2 & H3). rewrite H1, H2, H3. repeat (f_equal; [ring|]). f_equal; ring.
Qed.
