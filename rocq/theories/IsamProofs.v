(** Proofs for C178 to C182. *)
From Coq Require Import ZArith List Bool Arith QArith Qcanon Lia.
From Verif Require Import Base QcLra SimModel IsamModel IsamSpec.
Import ListNotations.
Local Open Scope Qc_scope.

(** ** Covariances *)
Lemma sq_nz : forall x : Qc, x * x = 0 -> x = 0.
Proof. intros x H. destruct (Qcmult_integral _ _ H); assumption. Qed.

Lemma cov3_inverse : forall xx xy xt yy yt hh, xx <> 0 -> yy <> 0 -> hh <> 0 ->
  let U := upper3 xx xy xt yy yt hh in exists C, cov3 U = Some C /\ inverse_of 3 (mmul 3 (tr U) U) C /\
  (forall i j, C i j = C j i).
Proof.
  intros a b c d e f Ha Hd Hf U. unfold cov3, inv3. set (A := mmul 3 (tr U) U).
  assert (E : A 0%nat 0%nat * cof3 A 0 0 + A 0%nat 1%nat * cof3 A 0 1 + A 0%nat 2%nat * cof3 A 0 2 = (a * d * f) * (a * d * f)).
  { unfold A, cof3, mmul, tr, U. cbn. ring. }
  assert (N : (a * d * f) * (a * d * f) <> 0).
  { intros K. apply sq_nz in K. destruct (Qcmult_integral _ _ K) as [K1|K1]; [|contradiction].
    destruct (Qcmult_integral _ _ K1); contradiction. }
  cbv zeta. rewrite E. destruct (Qc_eq_dec _ 0) as [K|_]; [contradiction|]. eexists. split; [reflexivity|]. split.
  - intros i j Hi Hj. destruct i as [|[|[|i]]]; [| | |lia]; destruct j as [|[|[|j]]]; try lia;
      unfold A, cof3, mmul, tr, U; cbn; field; repeat split; assumption.
  - intros i j. cbv beta. f_equal. 
    destruct i as [|[|[|i]]]; destruct j as [|[|[|j]]]; unfold A, cof3, mmul, tr, U; cbn; ring.
Qed.

Lemma cov3_none : forall xx xy xt yy yt hh, cov3 (upper3 xx xy xt yy yt hh) = None <-> xx = 0 \/ yy = 0 \/ hh = 0.
Proof.
  intros a b c d e f. split.
  - intros H. destruct (Qc_eq_dec a 0); [auto|]. destruct (Qc_eq_dec d 0); [auto|]. destruct (Qc_eq_dec f 0); [auto|].
    destruct (cov3_inverse a b c d e f) as (C & K & _); auto. congruence.
  - intros H. unfold cov3, inv3. cbv zeta. destruct (Qc_eq_dec _ 0) as [_|K]; [reflexivity|]. exfalso. apply K.
    transitivity ((a * d * f) * (a * d * f)); [unfold cof3, mmul, tr; cbn; ring|].
    destruct H as [->|[->| ->]]; ring.
Qed.

Lemma cov2_inverse : forall xx xy yy, xx <> 0 -> yy <> 0 ->
  let U := upper2 xx xy yy in exists C, cov2 U = Some C /\ inverse_of 2 (mmul 2 (tr U) U) C.
Proof.
  intros a b d Ha Hd U. unfold cov2, inv2. set (A := mmul 2 (tr U) U).
  assert (E : A 0%nat 0%nat * A 1%nat 1%nat - A 0%nat 1%nat * A 1%nat 0%nat = (a * d) * (a * d)).
  { unfold A, mmul, tr, U. cbn. ring. }
  assert (N : (a * d) * (a * d) <> 0).
  { intros K. apply sq_nz in K. destruct (Qcmult_integral _ _ K); contradiction. }
  cbv zeta. rewrite E. destruct (Qc_eq_dec _ 0) as [K|_]; [contradiction|]. eexists. split; [reflexivity|].
  intros i j Hi Hj. destruct i as [|[|i]]; [| |lia]; destruct j as [|[|j]]; try lia;
    unfold A, mmul, tr, U; cbn; field; repeat split; assumption.
Qed.

(** ** Reading *)
Section Read.
Context {P M : Type}.
Variable step : P -> Qc * Qc * Qc -> P.
Variable inverse : P -> Qc * Qc -> M.
Variable answer : Z -> Z -> bool.
Notation parse_all := (parse_all step inverse answer).

Lemma last_app : forall (l : list (Z * P)) t p, last_pose (l ++ [(t, p)]) = Val p.
Proof.
  intros l t p. unfold last_pose. rewrite app_length. cbn. replace (length l + 1 - 1)%nat with (length l) by lia.
  rewrite nth_error_app2, Nat.sub_diag by lia. reflexivity.
Qed.

Definition var_of (k : nat) (u : option mat) (c : mat -> option mat) (d : option Qc) : option Qc :=
  match u with Some U => option_map (fun m => m k k) (c U) | None => d end.

Lemma last_motion_none : forall ls d, last_motion ls d = match last_motion ls None with Some U => Some U | None => d end.
Proof.
  induction ls as [|l r IH]; intros d; [reflexivity|]. destruct l; cbn; auto.
  rewrite (IH (Some _)). destruct (last_motion r None); reflexivity.
Qed.
Lemma last_sighting_none : forall ls d, last_sighting ls d = match last_sighting ls None with Some U => Some U | None => d end.
Proof.
  induction ls as [|l r IH]; intros d; [reflexivity|]. destruct l; cbn; auto.
  rewrite (IH (Some _)). destruct (last_sighting r None); reflexivity.
Qed.

(** A data set: readable lines give everything they hold. *)
Lemma data_all : forall ls s l0 t p, Forall (readable answer) ls -> reckoned s = l0 ++ [(t, p)] ->
  exists s', parse_all false ls s = Val (Some s') /\
  odometry s' = odometry s ++ moves ls /\ reckoned s' = reckoned s ++ path step p (moves ls) /\ measured s' = measured s ++ sightings ls /\
  gt_moves s' = gt_moves s /\ gt_poses s' = gt_poses s /\ gt_lms s' = gt_lms s /\ gt_first s' = gt_first s /\
  vardx s' = var_of 0 (last_motion ls None) cov3 (vardx s) /\ vardy s' = var_of 1 (last_motion ls None) cov3 (vardy s) /\
  vardz s' = var_of 2 (last_motion ls None) cov3 (vardz s) /\
  varzx s' = var_of 0 (last_sighting ls None) cov2 (varzx s) /\ varzy s' = var_of 1 (last_sighting ls None) cov2 (varzy s).
Proof.
  induction ls as [|l r IH]; intros s l0 t p HR Hp.
  - exists s. cbn. rewrite !app_nil_r. repeat split; reflexivity.
  - inversion HR as [|? ? H1 H2]. subst. destruct l; cbn in H1; try contradiction; cbn [IsamModel.parse_all].
    + unfold parse.
      assert (B : negb (i1 =? i0 + 1)%Z && negb (answer i0 i1) = false).
      { destruct H1 as [->| ->]; [rewrite Z.eqb_refl; reflexivity|apply andb_false_r]. }
      rewrite B, Hp, last_app. cbn [obind].
      match goal with |- context [IsamModel.parse_all _ _ _ _ _ ?s0] => destruct (IH s0 (l0 ++ [(t, p)]) i1 (step p (x, y, th)) H2) as (s' & E & F) end.
      { cbn. reflexivity. }
      exists s'. split; [exact E|]. cbn in F. destruct F as (F1 & F2 & F3 & F4 & F5 & F6 & F7 & F8 & F9 & F10 & F11 & F12).
      cbn [moves sightings path last_motion last_sighting]. rewrite F1, F2, F3, F4, F5, F6, F7, F8, F9, F10, F11, F12, <- !app_assoc.
      rewrite (last_motion_none r (Some _)). destruct (last_motion r None); unfold var_of; tauto.
    + unfold parse. cbn [obind].
      match goal with |- context [IsamModel.parse_all _ _ _ _ _ ?s0] => destruct (IH s0 l0 t p H2) as (s' & E & F) end.
      { cbn. exact Hp. }
      exists s'. split; [exact E|]. cbn in F. destruct F as (F1 & F2 & F3 & F4 & F5 & F6 & F7 & F8 & F9 & F10 & F11 & F12).
      cbn [moves sightings last_motion last_sighting]. rewrite F1, F2, F3, F4, F5, F6, F7, F8, F9, F10, F11, F12, <- !app_assoc.
      rewrite (last_sighting_none r (Some _)). destruct (last_sighting r None); unfold var_of; tauto.
    + unfold parse. cbn [obind]. exact (IH s l0 t p H2 Hp).
Qed.

Lemma path_length : forall us p, length (path step p us) = length us.
Proof. induction us as [|(t & u) r IH]; intros p; cbn; [reflexivity|]. rewrite IH. reflexivity. Qed.

(** Where a sighting is attached. *)
Definition placed (gt : list (Z * P)) (z : Z * (Qc * Qc)) (m : M) : Prop :=
  exists t p, nth_error gt (Z.to_nat (fst z)) = Some (t, p) /\ m = inverse p (snd z).

Lemma placed_mono : forall gt gt' z m, placed gt z m -> placed (gt ++ gt') z m.
Proof.
  intros gt gt' z m (t & p & H & E). exists t, p. split; [|exact E]. rewrite nth_error_app1; [exact H|].
  apply nth_error_Some. congruence.
Qed.

Lemma truth_all : forall ls s l0 t p, Forall (readable answer) ls -> gt_poses s = l0 ++ [(t, p)] -> known (length l0) ls ->
  exists s' ms, parse_all true ls s = Val (Some s') /\
  gt_moves s' = gt_moves s ++ moves ls /\ gt_poses s' = gt_poses s ++ path step p (moves ls) /\
  gt_first s' = gt_first s ++ map fst (sightings ls) /\
  gt_lms s' = gt_lms s ++ ms /\ Forall2 (placed (gt_poses s')) (sightings ls) ms /\
  odometry s' = odometry s /\ reckoned s' = reckoned s /\ measured s' = measured s /\
  vardx s' = vardx s /\ vardy s' = vardy s /\ vardz s' = vardz s /\ varzx s' = varzx s /\ varzy s' = varzy s.
Proof.
  induction ls as [|l r IH]; intros s l0 t p HR Hp HK.
  - exists s, []. cbn. rewrite !app_nil_r. repeat split; try reflexivity. constructor.
  - inversion HR as [|? ? H1 H2]. subst. destruct l; cbn in H1; try contradiction; cbn [IsamModel.parse_all].
    + unfold parse.
      assert (B : negb (i1 =? i0 + 1)%Z && negb (answer i0 i1) = false).
      { destruct H1 as [->| ->]; [rewrite Z.eqb_refl; reflexivity|apply andb_false_r]. }
      rewrite B, Hp, last_app. cbn [obind]. cbn in HK.
      match goal with |- context [IsamModel.parse_all _ _ _ _ _ ?s0] => destruct (IH s0 (l0 ++ [(t, p)]) i1 (step p (x, y, th)) H2) as (s' & ms & E & F) end.
      { cbn. reflexivity. } { rewrite app_length. cbn. replace (length l0 + 1)%nat with (S (length l0)) by lia. exact HK. }
      exists s', ms. split; [exact E|]. cbn in F. destruct F as (F1 & F2 & F3 & F4 & F5 & F6 & F7 & F8 & F9 & F10 & F11 & F12 & F13).
      cbn [moves sightings path]. rewrite F1, F3, F4, F6, F7, F8, F9, F10, F11, F12, F13. rewrite F2 in F5 |- *. rewrite <- !app_assoc in *. cbn in *.
      repeat split; try reflexivity. exact F5.
    + cbn in HK. destruct HK as (Hi & HK). unfold parse, pose_at. rewrite (proj2 (Z.ltb_ge i 0)) by lia.
      assert (L : (Z.to_nat i < length (gt_poses s))%nat) by (rewrite Hp, app_length; cbn; lia).
      destruct (nth_error (gt_poses s) (Z.to_nat i)) as [(t1 & p1)|] eqn:En; [|apply nth_error_None in En; lia].
      cbn [option_map of_option snd obind].
      match goal with |- context [IsamModel.parse_all _ _ _ _ _ ?s0] => destruct (IH s0 l0 t p H2) as (s' & ms & E & F) end.
      { cbn. exact Hp. } { exact HK. }
      exists s', (inverse p1 (x, y) :: ms). split; [exact E|]. cbn in F. destruct F as (F1 & F2 & F3 & F4 & F5 & F6 & F7 & F8 & F9 & F10 & F11 & F12 & F13).
      cbn [moves sightings map fst]. rewrite F1, F3, F4, F6, F7, F8, F9, F10, F11, F12, F13. rewrite F2 in F5 |- *. rewrite <- !app_assoc.
      repeat split; try reflexivity. constructor; [|exact F5]. apply placed_mono. exists t1, p1. split; [exact En|reflexivity].
    + unfold parse. cbn [obind]. exact (IH s l0 t p H2 Hp HK).
Qed.

Lemma truth_ub : forall ls s l0 t p, Forall (readable answer) ls -> gt_poses s = l0 ++ [(t, p)] -> ~ known (length l0) ls ->
  parse_all true ls s = UB OutOfBounds.
Proof.
  induction ls as [|l r IH]; intros s l0 t p HR Hp HK.
  - exfalso. apply HK. exact I.
  - inversion HR as [|? ? H1 H2]. subst. destruct l; cbn in H1; try contradiction; cbn [IsamModel.parse_all].
    + unfold parse.
      assert (B : negb (i1 =? i0 + 1)%Z && negb (answer i0 i1) = false).
      { destruct H1 as [->| ->]; [rewrite Z.eqb_refl; reflexivity|apply andb_false_r]. }
      rewrite B, Hp, last_app. cbn [obind]. cbn in HK.
      eapply (IH _ (l0 ++ [(t, p)]) i1 (step p (x, y, th)) H2); [cbn; reflexivity|].
      rewrite app_length. cbn. replace (length l0 + 1)%nat with (S (length l0)) by lia. exact HK.
    + cbn in HK. unfold parse, pose_at. destruct (Z.ltb_spec i 0) as [K|K]; [reflexivity|].
      destruct (nth_error (gt_poses s) (Z.to_nat i)) as [(t1 & p1)|] eqn:En; [|reflexivity]. cbn [option_map of_option snd obind].
      assert (L : (Z.to_nat i < length (gt_poses s))%nat) by (apply nth_error_Some; congruence).
      rewrite Hp, app_length in L. cbn in L.
      eapply (IH _ l0 t p H2); [cbn; exact Hp|]. intros K'. apply HK. split; [lia|exact K'].
    + unfold parse. cbn [obind]. exact (IH s l0 t p H2 Hp HK).
Qed.

Lemma path_times : forall ls k p n t q, consecutive k ls -> nth_error (path step p (moves ls)) n = Some (t, q) -> t = (k + 1 + Z.of_nat n)%Z.
Proof.
  induction ls as [|l r IH]; intros k p n t q HC H.
  - destruct n; discriminate.
  - destruct l; cbn in HC, H; try (eapply IH; eauto; fail).
    destruct HC as (-> & -> & HC). destruct n as [|n]; cbn in H.
    + injection H as <- _. lia.
    + apply (IH _ _ _ _ _ HC) in H. lia.
Qed.
Lemma move_times : forall ls k n t u, consecutive k ls -> nth_error (moves ls) n = Some (t, u) -> t = (k + 1 + Z.of_nat n)%Z.
Proof.
  induction ls as [|l r IH]; intros k n t q HC H.
  - destruct n; discriminate.
  - destruct l; cbn in HC, H; try (eapply IH; eauto; fail).
    destruct HC as (-> & -> & HC). destruct n as [|n]; cbn in H.
    + injection H as <- _. lia.
    + apply (IH _ _ _ _ HC) in H. lia.
Qed.
End Read.

(** ** run *)
Section Run.
Context {P D U A : Type}.
Variable predict : U -> list (P * D) -> list (P * D).
Variable update : list A -> list (P * D) -> list (P * D).

Lemma set_pose_ok : forall i (p : P) (ps : list (P * D)), (i < length ps)%nat ->
  exists ps', set_pose i p ps = Val ps' /\ length ps' = length ps /\ map snd ps' = map snd ps /\
  forall j, option_map fst (nth_error ps' j) = if (j =? i)%nat then Some p else option_map fst (nth_error ps j).
Proof.
  intros i p ps Hi. unfold set_pose. destruct (nth_error ps i) as [(q & d)|] eqn:E; [|apply nth_error_None in E; lia].
  eexists. split; [reflexivity|].
  assert (S0 : ps = firstn i ps ++ (q, d) :: skipn (S i) ps).
  { clear Hi. revert i E. induction ps as [|x r IH]; intros [|i] E; try discriminate; cbn in *; [congruence|]. rewrite <- (IH i E). reflexivity. }
  assert (L : length (firstn i ps) = i) by (apply firstn_length_le; lia).
  split; [|split].
  - rewrite S0 at 3. rewrite !app_length. reflexivity.
  - rewrite S0 at 3. rewrite !map_app. reflexivity.
  - intros j. rewrite S0 at 3. destruct (Nat.eqb_spec j i) as [->|N].
    + rewrite nth_error_app2, L, Nat.sub_diag by lia. reflexivity.
    + destruct (Nat.lt_ge_cases j i) as [K|K].
      * rewrite !nth_error_app1 by lia. reflexivity.
      * rewrite !nth_error_app2 by lia. rewrite L. destruct (j - i)%nat as [|m] eqn:Em; [lia|]. reflexivity.
Qed.

Lemma set_poses_ok : forall n i (p : P) (ps : list (P * D)), (i + n <= length ps)%nat ->
  exists ps', set_poses n i p ps = Val ps' /\ length ps' = length ps /\ map snd ps' = map snd ps /\
  forall j, option_map fst (nth_error ps' j) = if (i <=? j)%nat && (j <? i + n)%nat then Some p else option_map fst (nth_error ps j).
Proof.
  induction n as [|n IH]; intros i p ps H.
  - exists ps. repeat split. intros j. destruct (Nat.leb_spec i j); destruct (Nat.ltb_spec j (i + 0)); try lia; reflexivity.
  - cbn [set_poses]. destruct (set_pose_ok i p ps) as (a & E & La & Sa & Pa); [lia|]. rewrite E. cbn [obind].
    destruct (IH (S i) p a) as (b & F & Lb & Sb & Pb); [lia|]. exists b. split; [exact F|]. split; [congruence|]. split; [congruence|].
    intros j. rewrite Pb, Pa. destruct (Nat.leb_spec (S i) j); destruct (Nat.ltb_spec j (S i + n)); destruct (Nat.leb_spec i j);
      destruct (Nat.ltb_spec j (i + S n)); destruct (Nat.eqb_spec j i); try lia; reflexivity.
Qed.

Lemma set_poses_short : forall n i (p : P) (ps : list (P * D)), (length ps < i + n)%nat -> (i <= length ps)%nat -> set_poses n i p ps = UB OutOfBounds.
Proof.
  induction n as [|n IH]; intros i p ps H Hi; [lia|]. cbn [set_poses].
  destruct (Nat.eq_dec i (length ps)) as [->|N].
  - unfold set_pose. rewrite (proj2 (nth_error_None _ _)) by lia. reflexivity.
  - destruct (set_pose_ok i p ps) as (a & E & La & _); [lia|]. rewrite E. cbn [obind]. apply IH; lia.
Qed.

(** At every step of the hold the first n particles are at the imposed pose. *)
Lemma run_held : forall hold n gt steps k us zs ps tr, run_loop predict update hold n gt steps k us zs ps = Val tr ->
  length tr = steps /\ forall m st j, nth_error tr m = Some st -> hold (k + m)%nat = Some j ->
  exists t p, nth_error gt j = Some (t, p) /\ (n <= length st)%nat /\ forall i q d, (i < n)%nat -> nth_error st i = Some (q, d) -> q = p.
Proof.
  intros hold n gt. induction steps as [|s IH]; intros k us zs ps tr H.
  - injection H as <-. split; [reflexivity|]. intros [|m]; discriminate.
  - cbn [run_loop] in H. destruct us as [|(t0 & u) us]; [discriminate|].
    apply obind_val in H. destruct H as (st0 & H0 & H).
    destruct zs as [|z zs]; [discriminate|]. destruct (take_at t0 (z :: zs)) as (b & rest).
    apply obind_val in H. destruct H as (tr' & H1 & H). injection H as <-.
    destruct (IH _ _ _ _ _ H1) as (L & R). split; [cbn; lia|].
    intros [|m] st j Hm Hj.
    + cbn in Hm. injection Hm as <-. rewrite Nat.add_0_r in Hj. rewrite Hj in H0.
      destruct (nth_error gt j) as [(t & p)|] eqn:Eg; [|discriminate]. cbn in H0. exists t, p. split; [reflexivity|].
      destruct (Nat.le_gt_cases n (length (predict u ps))) as [K|K].
      * destruct (set_poses_ok n 0 p (predict u ps)) as (a & E & La & _ & Pa); [lia|]. rewrite E in H0. injection H0 as <-.
        split; [lia|]. intros i q d Hi Hq. specialize (Pa i). rewrite Hq, (proj2 (Nat.leb_le 0 i)), (proj2 (Nat.ltb_lt i (0 + n))) in Pa by lia.
        cbn in Pa. congruence.
      * rewrite set_poses_short in H0 by lia. discriminate.
    + cbn in Hm. apply (R m st j Hm). rewrite <- Hj. f_equal. lia.
Qed.

Lemma run_iff : forall hold n gt, (forall u (ps : list (P * D)), length (predict u ps) = length ps) -> (forall b (ps : list (P * D)), length (update b ps) = length ps) ->
  forall steps k us zs ps, length ps = n ->
  ((exists tr, run_loop predict update hold n gt steps k us zs ps = Val tr) <->
   (steps <= length us)%nat /\ (forall m j, (m < steps)%nat -> hold (k + m)%nat = Some j -> (j < length gt)%nat) /\
   exists bs, batches (firstn steps (map fst us)) zs = Val bs).
Proof.
  intros hold n gt Hp Hu. induction steps as [|s IH]; intros k us zs ps Hn.
  - split; [intros _|intros _; exists []; reflexivity]. split; [lia|]. split; [lia|]. exists []. reflexivity.
  - cbn [run_loop]. destruct us as [|(t & u) us].
    { split; [intros (tr & H); discriminate|]. cbn. lia. }
    assert (G : forall ps', length ps' = n ->
      ((exists tr, match zs with [] => UB OutOfBounds | _ => let '(b, rest) := take_at t zs in
          omap (cons ps') (run_loop predict update hold n gt s (S k) us rest (update b ps')) end = Val tr) <->
       (s <= length us)%nat /\ (forall m j, (m < s)%nat -> hold (S k + m)%nat = Some j -> (j < length gt)%nat) /\
       exists bs, batches (firstn (S s) (map fst ((t, u) :: us))) zs = Val bs)).
    { intros ps' Hl. cbn [map fst firstn batches]. destruct zs as [|z zs].
      { split; [intros (tr & H); discriminate|]. intros (_ & _ & bs & H). discriminate. }
      destruct (take_at t (z :: zs)) as (b & rest). assert (Hl' : length (update b ps') = n) by (rewrite Hu; exact Hl).
      specialize (IH (S k) us rest (update b ps') Hl'). split.
      - intros (tr & H). apply obind_val in H. destruct H as (tr' & H & _). destruct (proj1 IH (ex_intro _ tr' H)) as (I1 & I2 & bs & I3).
        split; [exact I1|]. split; [exact I2|]. exists (b :: bs). rewrite I3. reflexivity.
      - intros (I1 & I2 & bs & I3). apply obind_val in I3. destruct I3 as (bs' & I3 & _).
        destruct (proj2 IH (conj I1 (conj I2 (ex_intro _ bs' I3)))) as (tr & H). exists (ps' :: tr). rewrite H. reflexivity. }
    assert (S0 : forall Q : nat -> nat -> Prop, (forall m j, (m < S s)%nat -> hold (k + m)%nat = Some j -> Q m j) <->
       (forall j, hold k = Some j -> Q 0%nat j) /\ (forall m j, (m < s)%nat -> hold (S k + m)%nat = Some j -> Q (S m) j)).
    { intros Q. split.
      - intros H. split; [intros j Hj; apply H; [lia|rewrite Nat.add_0_r; exact Hj]|]. intros m j Hm Hj. apply H; [lia|]. rewrite <- Hj. f_equal. lia.
      - intros (H1 & H2) [|m] j Hm Hj; [apply H1; rewrite Nat.add_0_r in Hj; exact Hj|]. apply H2; [lia|]. rewrite <- Hj. f_equal. lia. }
    rewrite (S0 (fun _ j => (j < length gt)%nat)). cbn [length].
    destruct (hold k) as [j|] eqn:Eh.
    + destruct (nth_error gt j) as [(t1 & p)|] eqn:Eg.
      * cbn [of_option obind snd]. destruct (set_poses_ok n 0 p (predict u ps)) as (a & E & La & _); [rewrite Hp; lia|].
        rewrite E. cbn [obind]. assert (Hla : length a = n) by (rewrite La, Hp; exact Hn). rewrite (G a Hla).
        assert (J : (j < length gt)%nat) by (apply nth_error_Some; congruence).
        split; [intros (X & Y & Z0)|intros (X & (_ & Y) & Z0)]; (split; [lia|]); (split; [|exact Z0]); [|exact Y].
        split; [|exact Y]. intros j' E'. injection E' as <-. exact J.
      * cbn [of_option obind]. split; [intros (tr & H); discriminate|]. intros (_ & (Y & _) & _). specialize (Y j eq_refl).
        apply nth_error_None in Eg. lia.
    + cbn [obind]. assert (Hla : length (predict u ps) = n) by (rewrite Hp; exact Hn). rewrite (G _ Hla).
      split; [intros (X & Y & Z0)|intros (X & (_ & Y) & Z0)]; (split; [lia|]); (split; [|exact Z0]); [|exact Y].
      split; [intros j' E'; discriminate|exact Y].
Qed.

Lemma run_no_truth : forall hold n gt gt', (forall k, hold k = None) -> forall steps k us zs ps,
  run_loop predict update hold n gt steps k us zs ps = run_loop predict update hold n gt' steps k us zs ps.
Proof.
  intros hold n gt gt' H. induction steps as [|s IH]; intros k us zs ps; [reflexivity|]. cbn [run_loop].
  destruct us as [|(t & u) us]; [reflexivity|]. rewrite H. cbn [obind]. destruct zs as [|z zs]; [reflexivity|].
  destruct (take_at t (z :: zs)) as (b & rest). rewrite IH. reflexivity.
Qed.
End Run.

Lemma hold_phd_never : forall k, hold_phd k = None.
Proof. intros k. unfold hold_phd. destruct (Z.leb_spec (Z.of_nat k) (-1100)); [lia|reflexivity]. Qed.

(** ** Points *)
Lemma points_all : forall ps, read_points (numbers ps) true = ps.
Proof.
  induction ps as [|(x & y) r IH]; [reflexivity|]. cbn. destruct r as [|(x' & y') r]; [reflexivity|]. cbn in *. rewrite IH. reflexivity.
Qed.
Lemma points_cut : forall ps x, read_points (numbers ps ++ [x]) true = match ps with [] => [] | _ => ps end.
Proof.
  induction ps as [|(a & b) r IH]; intros x; [reflexivity|]. cbn. destruct r as [|(a' & b') r]; [reflexivity|].
  cbn in *. rewrite IH. reflexivity.
Qed.
Lemma points_open : forall ps p, read_points (numbers (ps ++ [p])) false = ps.
Proof.
  induction ps as [|(a & b) r IH]; intros (x & y); [reflexivity|]. cbn. destruct r as [|(a' & b') r]; [reflexivity|].
  specialize (IH (x, y)). cbn in *. rewrite IH. reflexivity.
Qed.

(** ** The statements *)
Lemma last_motion_upper : forall ls d, (forall U, d = Some U -> exists a b c e f g, U = upper3 a b c e f g) ->
  forall U, last_motion ls d = Some U -> exists a b c e f g, U = upper3 a b c e f g.
Proof.
  induction ls as [|l r IH]; intros d H U E; [exact (H U E)|]. destruct l; cbn in E; try exact (IH d H U E).
  refine (IH (Some _) _ U E). intros U' K. injection K as <-. repeat eexists.
Qed.
Lemma last_sighting_upper : forall ls d, (forall U, d = Some U -> exists a b c, U = upper2 a b c) ->
  forall U, last_sighting ls d = Some U -> exists a b c, U = upper2 a b c.
Proof.
  induction ls as [|l r IH]; intros d H U E; [exact (H U E)|]. destruct l; cbn in E; try exact (IH d H U E).
  refine (IH (Some _) _ U E). intros U' K. injection K as <-. repeat eexists.
Qed.

Lemma file_noise : forall (P M : Type) (step : P -> Qc * Qc * Qc -> P) (inverse : P -> Qc * Qc -> M) answer origin ls s,
  Forall (readable answer) ls -> exists s', read_isam step inverse answer origin (Some ls) s = Val (Some s') /\
  (forall U, last_motion ls None = Some U -> U 0%nat 0%nat <> 0 -> U 1%nat 1%nat <> 0 -> U 2%nat 2%nat <> 0 ->
   exists C, inverse_of 3 (mmul 3 (tr U) U) C /\ [vardx s'; vardy s'; vardz s'] = map Some [C 0%nat 0%nat; C 1%nat 1%nat; C 2%nat 2%nat]) /\
  (forall U, last_sighting ls None = Some U -> U 0%nat 0%nat <> 0 -> U 1%nat 1%nat <> 0 ->
   exists C, inverse_of 2 (mmul 2 (tr U) U) C /\ [varzx s'; varzy s'] = map Some [C 0%nat 0%nat; C 1%nat 1%nat]).
Proof.
  intros P M step inverse answer origin ls s HR. unfold read_isam.
  match goal with |- context [parse_all _ _ _ _ _ ?s0] => destruct (data_all step inverse answer ls s0 (reckoned s) 0%Z origin) as (s' & E & F); [exact HR|reflexivity|] end.
  exists s'. split; [exact E|]. cbn in F. destruct F as (_ & _ & _ & _ & _ & _ & _ & F8 & F9 & F10 & F11 & F12).
  rewrite F8, F9, F10, F11, F12. split.
  - intros U K. rewrite K. destruct (last_motion_upper ls None) with (U := U) as (a & b & c & d & e & f & ->); [discriminate|exact K|].
    cbn. intros Ha Hd Hf. destruct (cov3_inverse a b c d e f Ha Hd Hf) as (C & EC & HC & _). exists C. split; [exact HC|]. rewrite EC. reflexivity.
  - intros U K. rewrite K. destruct (last_sighting_upper ls None) with (U := U) as (a & b & c & ->); [discriminate|exact K|].
    cbn. intros Ha Hd. destruct (cov2_inverse a b c Ha Hd) as (C & EC & HC). exists C. split; [exact HC|]. rewrite EC. reflexivity.
Qed.

Lemma main_noise : forall (P M : Type) (step : P -> Qc * Qc * Qc -> P) (inverse : P -> Qc * Qc -> M) answer origin c f g s,
  main_read step inverse answer origin c f g = Val (Some s) ->
  filter_Q c s = map (fun v => Some (v * (c_pinfl c * c_dT c * c_dT c))) [c_dx c; c_dy c; c_dz c] /\
  filter_R c s = map (fun v => Some (v * c_zinfl c)) [c_zx c; c_zy c].
Proof.
  intros P M step inverse answer origin c f g s H. unfold main_read in H. apply obind_val in H. destruct H as ([a|] & _ & H); [|discriminate].
  apply obind_val in H. destruct H as ([b|] & _ & H); [|discriminate]. injection H as <-. split; reflexivity.
Qed.

Lemma truth_exact : forall (P M : Type) (step : P -> Qc * Qc * Qc -> P) (inverse : P -> Qc * Qc -> M) answer origin ls s,
  gt_poses s = [] -> gt_lms s = [] -> Forall (readable answer) ls ->
  (known 0 ls -> exists s', read_truth step inverse answer origin (Some ls) s = Val (Some s') /\
     gt_poses s' = (0%Z, origin) :: path step origin (moves ls) /\
     Forall2 (fun z m => exists t p, nth_error (gt_poses s') (Z.to_nat (fst z)) = Some (t, p) /\ m = inverse p (snd z)) (sightings ls) (gt_lms s')) /\
  (~ known 0 ls -> read_truth step inverse answer origin (Some ls) s = UB OutOfBounds).
Proof.
  intros P M step inverse answer origin ls s Hp Hm HR. unfold read_truth. rewrite Hp, Hm. split.
  - intros HK. match goal with |- context [parse_all _ _ _ _ _ ?s0] => destruct (truth_all step inverse answer ls s0 [] 0%Z origin) as (s' & ms & E & F); [exact HR|reflexivity|exact HK|] end.
    exists s'. split; [exact E|]. cbn in F. destruct F as (_ & F2 & _ & F4 & F5 & _). rewrite F4. split; [exact F2|]. exact F5.
  - intros HK. eapply (truth_ub step inverse answer ls _ []); [exact HR|cbn; reflexivity|exact HK].
Qed.

Lemma truth_times : forall (P M : Type) (step : P -> Qc * Qc * Qc -> P) (inverse : P -> Qc * Qc -> M) answer origin ls s s',
  gt_poses s = [] -> gt_lms s = [] -> consecutive 0 ls -> Forall (readable answer) ls ->
  read_truth step inverse answer origin (Some ls) s = Val (Some s') ->
  forall n t p, nth_error (gt_poses s') n = Some (t, p) -> t = Z.of_nat n.
Proof.
  intros P M step inverse answer origin ls s s' Hp Hm HC HR H n t p Hn.
  destruct (truth_exact P M step inverse answer origin ls s Hp Hm HR) as (T1 & T2).
  assert (HK : known 0 ls).
  { assert (Dn : forall ls n, known n ls \/ ~ known n ls).
    { clear. induction ls as [|l r IH]; intros n; [left; exact I|]. destruct l; cbn; try apply IH.
      destruct (IH n) as [K|K]; [|right; tauto]. destruct (Z_le_dec 0 i); destruct (Z_le_dec i (Z.of_nat n)); [left; tauto|right; lia..]. }
    destruct (Dn ls 0%nat) as [K|K]; [exact K|]. rewrite (T2 K) in H. discriminate. }
  destruct (T1 HK) as (s2 & E & F & _). rewrite E in H. injection H as <-. rewrite F in Hn. destruct n as [|n]; cbn in Hn.
  - injection Hn as <- _. reflexivity.
  - apply (path_times step ls 0 origin n t p HC) in Hn. lia.
Qed.

Lemma held_on_time : forall (P M : Type) (step : P -> Qc * Qc * Qc -> P) (inverse : P -> Qc * Qc -> M) answer origin c ls g s,
  consecutive 0 ls -> consecutive 0 g -> Forall (readable answer) ls -> Forall (readable answer) g ->
  main_read step inverse answer origin c (Some ls) (Some g) = Val (Some s) ->
  forall k j t u t' p, hold_lmb k = Some j -> nth_error (odometry s) k = Some (t, u) -> nth_error (gt_poses s) j = Some (t', p) -> t' = t.
Proof.
  intros P M step inverse answer origin c ls g s C1 C2 R1 R2 H k j t u t' p Hh Ho Hg.
  unfold main_read in H. apply obind_val in H. destruct H as ([a|] & Ha & H); [|discriminate].
  apply obind_val in H. destruct H as ([b|] & Hb & H); [|discriminate]. injection H as <-. cbn in Ho, Hg.
  unfold read_isam in Ha. match type of Ha with context [parse_all _ _ _ _ _ ?s0] => destruct (data_all step inverse answer ls s0 [] 0%Z origin) as (s' & E & F); [exact R1|reflexivity|] end. rewrite E in Ha.
  injection Ha as <-. cbn in F. destruct F as (F1 & _ & _ & _ & F5 & F6 & _).
  assert (T := truth_times P M step inverse answer origin g s' b F5 F6 C2 R2 Hb _ _ _ Hg).
  assert (O : odometry b = moves ls).
  { destruct (truth_exact P M step inverse answer origin g s' F5 F6 R2) as (T1 & T2). clear - F1 Hb.
    rewrite <- F1. unfold read_truth in Hb. 
    assert (G : forall xs s0, parse_all step inverse answer true xs s0 = Val (Some b) -> odometry b = odometry s0).
    { induction xs as [|l r IH]; intros s0 K; cbn [parse_all] in K; [injection K as <-; reflexivity|].
      apply obind_val in K. destruct K as ([s1|] & K1 & K); [|discriminate]. rewrite (IH _ K). destruct l; cbn in K1; try discriminate.
      - destruct (_ && _) in K1; [discriminate|]. apply obind_val in K1. destruct K1 as (p & _ & K1). injection K1 as <-. reflexivity.
      - apply obind_val in K1. destruct K1 as (p & _ & K1). injection K1 as <-. reflexivity.
      - injection K1 as <-. reflexivity. }
    rewrite (G _ _ Hb). reflexivity. }
  rewrite O in Ho. apply (move_times ls 0 k t u C1) in Ho. unfold hold_lmb in Hh. destruct (k <=? 4)%nat; [|discriminate]. injection Hh as <-. lia.
Qed.

(** ** Sampling *)
Lemma sum_sq0 : forall x y : Qc, x * x + y * y = 0 -> x = 0 /\ y = 0.
Proof.
  intros x y H. assert (S0 : forall z : Qc, 0 <= z * z) by (intros z; qcnra).
  pose proof (S0 x). pose proof (S0 y). revert H H0 H1. split; apply sq_nz; clear S0.
  - generalize dependent (x * x). generalize dependent (y * y). intros. apply Qcle_antisym; qclra.
  - generalize dependent (x * x). generalize dependent (y * y). intros. apply Qcle_antisym; qclra.
Qed.

Lemma lmb_silent : forall a b F n, (forall i j, (i < 2)%nat -> (j < 2)%nat -> mmul 2 F (tr F) i j = simulated_lmb a b i j) ->
  forall i, (i < 2)%nat -> F i 0%nat * n 0%nat + F i 1%nat * n 1%nat = 0.
Proof.
  intros a b F n H i Hi. specialize (H i i Hi Hi). unfold mmul, tr, simulated_lmb, mm_new in H. cbn in H.
  destruct (sum_sq0 (F i 0%nat) (F i 1%nat)) as (-> & ->); [rewrite <- H; ring|]. ring.
Qed.
