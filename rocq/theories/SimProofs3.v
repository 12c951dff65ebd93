(** Proofs about the simulators: delivery of measurements, trajectories. *)
From Coq Require Import List Arith ZArith QArith Qcanon Lia Reals Lra Bool.
From Verif Require Import Base QcLra SensorModel SimModel SimSpec SimProofs SimProofs2.
Import ListNotations.

(** * Delivery of measurements *)
Local Open Scope Z_scope.
Section Run.
Context {A : Type}.
Implicit Types zs : list (Z * A).

Lemma ordered_tail : forall a zs, time_ordered (a :: zs) -> time_ordered zs.
Proof. intros a zs H i j x y L E1 E2. apply (H (S i) (S j) x y); [lia| |]; assumption. Qed.
Lemma ordered_head : forall a zs, time_ordered (a :: zs) -> forall z, In z zs -> fst a <= fst z.
Proof. intros a zs H z Hz. apply In_nth_error in Hz. destruct Hz as (j & E). apply (H 0%nat (S j) a z); [lia|reflexivity|exact E]. Qed.
Lemma ordered_filter : forall f zs, time_ordered zs -> time_ordered (filter f zs).
Proof.
  intros f zs. induction zs as [|a zs IH]; intro H; [exact H|]. cbn [filter]. specialize (IH (ordered_tail _ _ H)).
  destruct (f a); [|exact IH]. intros i j x y L E1 E2. destruct j as [|j]; [lia|]. cbn in E2. destruct i as [|i].
  - cbn in E1. injection E1 as <-. apply nth_error_In in E2. apply filter_In in E2. apply (ordered_head _ _ H). tauto.
  - apply (IH i j x y); [lia| |]; assumption.
Qed.

Lemma take_at_ordered : forall time zs, time_ordered zs -> (forall z, In z zs -> time <= fst z) ->
  take_at time zs = (at_time time zs, filter (fun z => negb (fst z =? time)) zs).
Proof.
  intros time zs. induction zs as [|(kz, z) zs IH]; intros O B; [reflexivity|]. cbn [take_at]. unfold at_time. cbn [filter fst].
  destruct (Z.eqb_spec kz time) as [->|N]; cbn [negb].
  - rewrite IH; [reflexivity|exact (ordered_tail _ _ O)|]. intros y Hy. apply B. right. exact Hy.
  - assert (L : forall y, In y zs -> fst y =? time = false).
    { intros y Hy. apply Z.eqb_neq. pose proof (ordered_head _ _ O y Hy). pose proof (B (kz, z) (or_introl eq_refl)). cbn in *. lia. }
    assert (F1 : filter (fun y => fst y =? time) zs = []).
    { clear -L. induction zs as [|y zs IH]; [reflexivity|]. cbn [filter]. rewrite (L y (or_introl eq_refl)). apply IH. intros; apply L; right; assumption. }
    assert (F2 : filter (fun y => negb (fst y =? time)) zs = zs).
    { clear -L. induction zs as [|y zs IH]; [reflexivity|]. cbn [filter]. rewrite (L y (or_introl eq_refl)). cbn [negb]. f_equal. apply IH. intros; apply L; right; assumption. }
    rewrite F1, F2. reflexivity.
Qed.

Lemma at_time_filter : forall t time zs, t <> time -> at_time t (filter (fun z => negb (fst z =? time)) zs) = at_time t zs.
Proof.
  intros t time zs N. unfold at_time. f_equal. induction zs as [|z zs IH]; [reflexivity|]. cbn [filter].
  destruct (Z.eqb_spec (fst z) time) as [E|E]; cbn [negb].
  - rewrite IH. destruct (Z.eqb_spec (fst z) t); [congruence|reflexivity].
  - cbn [filter]. rewrite IH. reflexivity.
Qed.

Lemma increasing_tail : forall t ts, increasing (t :: ts) -> increasing ts.
Proof. intros t ts H i j x y L E1 E2. apply (H (S i) (S j) x y); [lia| |]; assumption. Qed.
Lemma increasing_head : forall t ts, increasing (t :: ts) -> forall x, In x ts -> t < x.
Proof. intros t ts H x Hx. apply In_nth_error in Hx. destruct Hx as (j & E). apply (H 0%nat (S j) t x); [lia|reflexivity|exact E]. Qed.
Lemma increasing_cons : forall t ts, increasing ts -> (forall x, In x ts -> t < x) -> increasing (t :: ts).
Proof.
  intros t ts I B i j x y L E1 E2. destruct j as [|j]; [lia|]. cbn in E2. destruct i as [|i].
  - cbn in E1. injection E1 as <-. apply B. apply nth_error_In in E2. exact E2.
  - apply (I i j x y); [lia| |]; assumption.
Qed.

Lemma last_In : forall (ts : list Z) d, ts <> [] -> In (last ts d) ts.
Proof.
  intros ts d. induction ts as [|t ts IH]; intro H; [contradiction|]. destruct ts as [|t' ts]; [left; reflexivity|].
  right. change (last (t :: t' :: ts) d) with (last (t' :: ts) d). apply IH. discriminate.
Qed.

Lemma batches_right : forall times zs, increasing times -> time_ordered zs ->
  (forall z, In z zs -> In (fst z) times) -> times <> [] ->
  ((exists z, In z zs /\ fst z = last times 0) -> batches times zs = Val (map (fun t => at_time t zs) times)) /\
  ((forall z, In z zs -> fst z <> last times 0) -> batches times zs = UB OutOfBounds).
Proof.
  induction times as [|t ts IH]; intros zs I O M N; [contradiction|].
  assert (B : forall z, In z zs -> t <= fst z).
  { intros z Hz. destruct (M z Hz) as [->|Hx]; [lia|]. pose proof (increasing_head _ _ I _ Hx). lia. }
  assert (T := take_at_ordered t zs O B).
  assert (M' : forall z, In z (filter (fun z => negb (fst z =? t)) zs) -> In (fst z) ts).
  { intros z Hz. apply filter_In in Hz. destruct Hz as (Hz & E). apply negb_true_iff, Z.eqb_neq in E.
    destruct (M z Hz) as [->|Hx]; [contradiction|exact Hx]. }
  assert (Ext : map (fun t' => at_time t' (filter (fun z => negb (fst z =? t)) zs)) ts = map (fun t' => at_time t' zs) ts).
  { apply map_ext_in. intros x Hx. apply at_time_filter. pose proof (increasing_head _ _ I _ Hx). lia. }
  cbn [batches]. split.
  - intros (z & Hz & Ez). destruct zs as [|a zs]; [destruct Hz|]. rewrite T. cbn [map].
    destruct ts as [|t' ts]; [reflexivity|].
    destruct (IH (filter (fun z => negb (fst z =? t)) (a :: zs)) (increasing_tail _ _ I) (ordered_filter _ _ O) M' ltac:(discriminate)) as (R & _).
    rewrite R.
    + rewrite Ext. reflexivity.
    + exists z. change (last (t :: t' :: ts) 0) with (last (t' :: ts) 0) in Ez. split; [|exact Ez]. apply filter_In. split; [exact Hz|].
      apply negb_true_iff, Z.eqb_neq. pose proof (increasing_head _ _ I _ (last_In (t' :: ts) 0 ltac:(discriminate))). lia.
  - intro Nz. destruct zs as [|a zs]; [reflexivity|]. rewrite T.
    destruct ts as [|t' ts].
    + exfalso. destruct (M a (or_introl eq_refl)) as [E|[]]. apply (Nz a (or_introl eq_refl)). cbn. congruence.
    + destruct (IH (filter (fun z => negb (fst z =? t)) (a :: zs)) (increasing_tail _ _ I) (ordered_filter _ _ O) M' ltac:(discriminate)) as (_ & R).
      rewrite R; [reflexivity|]. intros z Hz. apply filter_In in Hz. change (last (t' :: ts) 0) with (last (t :: t' :: ts) 0). apply Nz. tauto.
Qed.

(** Whatever the order of the measurements: what is delivered is an initial part of the list. *)
Lemma take_at_split : forall time zs b rest, take_at time zs = (b, rest) -> map snd zs = b ++ map snd rest.
Proof.
  intros time zs. induction zs as [|(kz, z) zs IH]; intros b rest H; cbn [take_at] in H.
  - injection H as <- <-. reflexivity.
  - destruct (kz =? time).
    + destruct (take_at time zs) as (b', r') eqn:E. injection H as <- <-. cbn [map app snd]. f_equal. apply IH. reflexivity.
    + injection H as <- <-. reflexivity.
Qed.
Lemma batches_prefix : forall times zs bs, batches times zs = Val bs ->
  length bs = length times /\ exists rest, map snd zs = concat bs ++ rest.
Proof.
  induction times as [|t ts IH]; intros zs bs H; cbn [batches] in H.
  - injection H as <-. split; [reflexivity|]. exists (map snd zs). reflexivity.
  - destruct zs as [|a zs]; [discriminate|]. destruct (take_at t (a :: zs)) as (b, r) eqn:E.
    destruct (batches ts r) as [bs'|?|] eqn:E'; try discriminate. cbn in H. injection H as <-.
    destruct (IH r bs' E') as (L & rest & Er). split; [cbn; f_equal; exact L|]. exists rest.
    rewrite (take_at_split _ _ _ _ E), Er. cbn [concat]. apply app_assoc.
Qed.

(** A first measurement whose time is not among the steps blocks all others. *)
Lemma batches_stuck : forall times t0 z zs, ~ In t0 times -> batches times ((t0, z) :: zs) = Val (repeat [] (length times)).
Proof.
  induction times as [|t ts IH]; intros t0 z zs N; [reflexivity|]. cbn [batches take_at].
  destruct (Z.eqb_spec t0 t) as [->|_]; [exfalso; apply N; left; reflexivity|].
  rewrite IH; [reflexivity|]. intro H. apply N. right. exact H.
Qed.
End Run.

(** The measurements of the simulator are in order and at times of steps. *)
Section Sim.
Variables seen kept : Z -> nat -> bool.
Lemma ordered_app : forall {A : Type} (xs ys : list (Z * A)), time_ordered xs -> time_ordered ys ->
  (forall x y, In x xs -> In y ys -> fst x <= fst y) -> time_ordered (xs ++ ys).
Proof.
  intros A xs ys Ox Oy B i j a b L E1 E2. destruct (Nat.lt_ge_cases j (length xs)) as [J|J].
  - rewrite nth_error_app1 in E2 by exact J. rewrite nth_error_app1 in E1 by lia. apply (Ox i j); assumption.
  - rewrite nth_error_app2 in E2 by exact J. destruct (Nat.lt_ge_cases i (length xs)) as [I|I].
    + rewrite nth_error_app1 in E1 by exact I. apply B; eapply nth_error_In; eassumption.
    + rewrite nth_error_app2 in E1 by exact I. apply (Oy (i - length xs)%nat (j - length xs)%nat); [lia| |]; assumption.
Qed.
Lemma detect_ordered : forall dT len k t first, 0 <= dT -> time_ordered (fst (detect seen kept dT len k t first)).
Proof.
  intros dT. induction len as [|len IH]; intros k t first HdT; cbn [detect].
  - intros i j a b _ E. destruct i; discriminate.
  - destruct (detect_step seen kept (t + dT) k first) as (zs, f1) eqn:E1.
    pose proof (IH (k + 1) (t + dT) f1 HdT) as O. pose proof (detect_in seen kept dT len (k + 1) (t + dT) f1) as D.
    destruct (detect seen kept dT len (k + 1) (t + dT) f1) as (zs', f2). cbn [fst] in *.
    assert (S1 : forall t' m, In (t', m) zs -> t' = t + dT).
    { intros t' m H. pose proof (detect_step_in seen kept (t + dT) k first t' m) as X. rewrite E1 in X. apply X in H. tauto. }
    apply ordered_app; [|exact O|].
    + intros i j (a, m) (b, m') _ Ha Hb. apply nth_error_In in Ha, Hb. rewrite (S1 _ _ Ha), (S1 _ _ Hb). cbn [fst]. lia.
    + intros (a, m) (b, m') Ha Hb. apply D in Hb. destruct Hb as (i & Hi & -> & _). rewrite (S1 _ _ Ha). cbn [fst]. nia.
Qed.

Lemma step_times_nth : forall kMax dT i, (i < Z.to_nat kMax)%nat -> nth_error (step_times kMax dT) i = Some (Z.of_nat i * dT).
Proof.
  intros kMax dT i H. unfold step_times. rewrite nth_error_map.
  assert (E : nth_error (seq 0 (Z.to_nat kMax)) i = Some i).
  { rewrite (nth_error_nth' _ 0%nat) by (rewrite seq_length; exact H). rewrite seq_nth by exact H. reflexivity. }
  rewrite E. reflexivity.
Qed.
Lemma step_times_increasing : forall kMax dT, 0 < dT -> increasing (step_times kMax dT).
Proof.
  intros kMax dT HdT i j a b L E1 E2.
  assert (Lj : (j < Z.to_nat kMax)%nat).
  { replace (Z.to_nat kMax) with (length (step_times kMax dT)) by (unfold step_times; rewrite map_length, seq_length; reflexivity).
    apply nth_error_Some. rewrite E2. discriminate. }
  rewrite step_times_nth in E1, E2 by lia. injection E1 as <-. injection E2 as <-. nia.
Qed.
Lemma step_times_last : forall kMax dT, 1 <= kMax -> last (step_times kMax dT) 0 = (kMax - 1) * dT.
Proof.
  intros kMax dT H. unfold step_times. replace (Z.to_nat kMax) with (Z.to_nat (kMax - 1) + 1)%nat by lia.
  rewrite seq_app, map_app. cbn [seq map]. rewrite last_last. f_equal. lia.
Qed.

Lemma simulation_delivered : forall kMax dT nLm, 1 <= kMax -> 0 < dT ->
  (exists m, (m < nLm)%nat /\ 1 <= kMax - 1 /\ seen (kMax - 1) m = true /\ kept (kMax - 1) m = true) ->
  batches (step_times kMax dT) (fst (detections seen kept kMax dT nLm)) =
  Val (map (fun t => at_time t (fst (detections seen kept kMax dT nLm))) (step_times kMax dT)).
Proof.
  intros kMax dT nLm Hk HdT (m & Hm & H1 & S1 & K1).
  destruct (batches_right (step_times kMax dT) (fst (detections seen kept kMax dT nLm))) as (R & _).
  - apply step_times_increasing. exact HdT.
  - apply detect_ordered. lia.
  - intros (t, m') H. apply detections_in in H. destruct H as (k & Hk' & -> & _). cbn [fst].
    apply nth_error_In with (Z.to_nat k). rewrite step_times_nth by lia. rewrite Z2Nat.id by lia. reflexivity.
  - intro E. assert (length (step_times kMax dT) = 0)%nat by (rewrite E; reflexivity).
    unfold step_times in H. rewrite map_length, seq_length in H. lia.
  - apply R. exists ((kMax - 1) * dT, m). split.
    + apply detections_in. exists (kMax - 1). repeat split; auto; lia.
    + cbn [fst]. rewrite step_times_last by exact Hk. reflexivity.
Qed.
End Sim.

(** * Trajectories *)
Section Walk.
Variable rnd : nat -> Qc.
Context {pose : Type}.
Variable step : pose -> motion -> pose.

Lemma span : forall u h d, (0 <= u < 1 -> 0 <= h -> 0 < d -> - (h * d) <= (u * h * (1 + 1) - h) * d /\ (u * h * (1 + 1) - h) * d <= h * d)%Qc.
Proof.
  intros u h d (A & B) Hh Hd.
  assert (P : (0 <= u * h)%Qc) by (qcnra). assert (P' : (0 <= (1 - u) * h)%Qc) by qcnra.
  assert (Q1 : (0 <= u * h * d)%Qc) by (clear P'; set (x := (u * h)%Qc) in *; qcnra).
  assert (Q2 : (0 <= (1 - u) * h * d)%Qc) by (set (x := ((1 - u) * h)%Qc) in *; qcnra).
  split.
  - replace ((u * h * (1 + 1) - h) * d)%Qc with (u * h * d * (1 + 1) - h * d)%Qc by ring. qclra.
  - replace ((u * h * (1 + 1) - h) * d)%Qc with (h * d - (1 - u) * h * d * (1 + 1))%Qc by ring. qclra.
Qed.

Lemma draw_motion_legal : forall fuel p l m q, unit_stream rnd -> proper l ->
  draw_motion rnd fuel p l = Val (m, q) -> legal l m.
Proof.
  intros fuel p l m q U (Hx & Hy & Hr & Hd) H. unfold draw_motion in H. apply obind_val in H. destruct H as ((dx, p') & E & H).
  injection H as <- <-. destruct (draw_above_val _ _ _ _ _ _ _ E) as (i & -> & _ & -> & L & _).
  unfold legal. cbn [m_x m_y m_r]. split.
  - split; [exact L|]. apply unit_mul; [apply U|]. qcnra.
  - pose proof (span _ _ _ (U (S (p + i))) Hy Hd). pose proof (span _ _ _ (U (S (S (p + i)))) Hr Hd). tauto.
Qed.

Lemma follows_nil : forall x0, follows step x0 [] [].
Proof. intro. split; [reflexivity|]. intros i t u E. destruct i; discriminate. Qed.
Lemma follows_cons : forall x0 t u us xs, follows step (step x0 u) us xs -> follows step x0 ((t, u) :: us) ((t, step x0 u) :: xs).
Proof.
  intros x0 t u us xs (L & F). split; [cbn; f_equal; exact L|]. intros [|i] t' u' E; cbn in E.
  - injection E as <- <-. exists x0, (step x0 u). split; [left; auto|]. auto.
  - destruct (F i t' u' E) as (x & y & [(-> & ->)|(j & tx & -> & Ej)] & E1 & E2).
    + exists (step x0 u), y. split; [right; exists 0%nat, t; auto|]. auto.
    + exists x, y. split; [right; exists (S j), tx; auto|]. auto.
Qed.
Lemma reckon_follows : forall us x0, follows step x0 us (reckon step x0 us).
Proof. induction us as [|(t, u) us IH]; intro x0; cbn [reckon]; [apply follows_nil|]. apply follows_cons, IH. Qed.

Lemma walk_spec : forall fuel l kMax nSeg dT, unit_stream rnd -> proper l -> forall len k seg t p inp prev us xs,
  1 <= k -> (k <= 51 -> seg = 0) -> (52 <= k -> legal l inp) ->
  walk rnd step fuel l kMax nSeg dT len k seg t p inp prev = Val (us, xs) ->
  length us = len /\ follows step prev us xs /\
  forall i ti u, nth_error us i = Some (ti, u) ->
    ti = t + (Z.of_nat i + 1) * dT /\ (k + Z.of_nat i <= 50 -> u = still) /\ (51 <= k + Z.of_nat i -> legal l u).
Proof.
  intros fuel l kMax nSeg dT U P. induction len as [|len IH]; intros k seg t p inp prev us xs Hk Hs Hl H; cbn [walk] in H.
  - injection H as <- <-. split; [reflexivity|]. split; [apply follows_nil|]. intros [|i] ? ? E; discriminate.
  - apply obind_val in H. destruct H as (((seg', p'), inp') & E1 & H). apply obind_val in H. destruct H as ((us', xs') & E2 & H).
    injection H as <- <-.
    assert (C : (k <= 50 -> inp' = still /\ seg' = seg) /\ (51 <= k -> legal l inp')).
    { destruct (Z.leb_spec k 50) as [Lk|Lk].
      - injection E1 as <- <- <-. split; [auto|lia].
      - split; [lia|]. intros _. unfold due in E1. destruct (nSeg =? 0); [discriminate|]. cbn [obind] in E1.
        destruct (kMax ÷ nSeg * seg <=? k) eqn:D.
        + apply obind_val in E1. destruct E1 as ((m, q) & Em & E1). injection E1 as <- <- <-.
          exact (draw_motion_legal _ _ _ _ _ U P Em).
        + injection E1 as <- <- <-. apply Hl. destruct (Z.eq_dec k 51) as [->|]; [|lia].
          rewrite (Hs ltac:(lia)), Z.mul_0_r in D. discriminate. }
    destruct C as (C1 & C2).
    destruct (IH (k + 1) seg' (t + dT) p' inp' (step prev inp') us' xs' ltac:(lia)) as (L & F & N).
    + intro Hk'. destruct (C1 ltac:(lia)) as (_ & ->). apply Hs. lia.
    + intro. apply C2. lia.
    + exact E2.
    + split; [cbn; f_equal; exact L|]. split; [apply follows_cons; exact F|].
      intros [|i] ti u E; cbn in E.
      * injection E as <- <-. split; [lia|]. replace (k + Z.of_nat 0) with k by lia. split; [intro; apply C1; assumption|exact C2].
      * destruct (N i ti u E) as (A & B & D). replace (k + Z.of_nat (S i)) with (k + 1 + Z.of_nat i) by lia. split; [lia|]. split; assumption.
Qed.

(** More fuel changes nothing once the draws end. *)
Lemma draw_above_more : forall lo hi f p v f', draw_above rnd f p lo hi = Val v -> (f <= f')%nat -> draw_above rnd f' p lo hi = Val v.
Proof.
  intros lo hi. induction f as [|f IH]; intros p v f' H L; cbn [draw_above] in H; destruct (Qcltb (rnd p * hi) lo) eqn:E; try discriminate.
  - destruct f'; cbn [draw_above]; rewrite E; exact H.
  - destruct f' as [|f']; [lia|]. cbn [draw_above]. rewrite E. apply IH; [exact H|lia].
  - destruct f'; cbn [draw_above]; rewrite E; exact H.
Qed.
Lemma draw_motion_more : forall l f p v f', draw_motion rnd f p l = Val v -> (f <= f')%nat -> draw_motion rnd f' p l = Val v.
Proof.
  intros l f p v f' H L. unfold draw_motion in *. apply obind_val in H. destruct H as (a & E & H).
  rewrite (draw_above_more _ _ _ _ _ _ E L). exact H.
Qed.

Lemma walk_more : forall l kMax nSeg dT f f', (f <= f')%nat -> forall len k seg t p inp prev v,
  walk rnd step f l kMax nSeg dT len k seg t p inp prev = Val v -> walk rnd step f' l kMax nSeg dT len k seg t p inp prev = Val v.
Proof.
  intros l kMax nSeg dT f f' L. induction len as [|len IH]; intros k seg t p inp prev v H; cbn [walk] in *; [exact H|].
  apply obind_val in H. destruct H as (((seg', p'), inp') & E1 & H). apply obind_val in H. destruct H as ((us', xs') & E2 & H).
  assert (E1' : (if k <=? 50 then Val (seg, p, still)
        else let* d := due kMax nSeg seg k in if (d : bool) then let* (m, p) := draw_motion rnd f' p l in Val (seg + 1, p, m) else Val (seg, p, inp))
        = Val (seg', p', inp')).
  { destruct (k <=? 50); [exact E1|]. apply obind_val in E1. destruct E1 as (d & -> & E1). cbn [obind]. destruct d; [|exact E1].
    apply obind_val in E1. destruct E1 as (a & Ea & E1). rewrite (draw_motion_more _ _ _ _ _ Ea L). exact E1. }
  rewrite E1'. cbn [obind]. rewrite (IH _ _ _ _ _ _ _ E2). exact H.
Qed.

(** The walk ends when large enough draws keep coming. *)
Lemma walk_ends : forall l kMax nSeg dT, nSeg <> 0 ->
  (forall p, exists i, l_minx l * l_dt l <= rnd (p + i)%nat * (l_maxx l * l_dt l))%Qc ->
  forall len k seg t p inp prev, exists fuel us xs, walk rnd step fuel l kMax nSeg dT len k seg t p inp prev = Val (us, xs).
Proof.
  intros l kMax nSeg dT Hn Often. induction len as [|len IH]; intros k seg t p inp prev.
  - exists 0%nat, [], []. reflexivity.
  - assert (C : exists f seg' p' inp', (if k <=? 50 then Val (seg, p, still)
        else let* d := due kMax nSeg seg k in if (d : bool) then let* (m, p) := draw_motion rnd f p l in Val (seg + 1, p, m) else Val (seg, p, inp))
        = Val (seg', p', inp')).
    { destruct (k <=? 50); [exists 0%nat; eauto|]. unfold due. rewrite (proj2 (Z.eqb_neq nSeg 0) Hn). cbn [obind].
      destruct (_ <=? k); [|exists 0%nat; eauto]. destruct (Often p) as (i & Hi).
      destruct (draw_above_ends _ _ _ _ _ Hi) as (x & q & E). exists i. unfold draw_motion. rewrite E. cbn [obind]. eauto. }
    destruct C as (f & seg' & p' & inp' & E1).
    destruct (IH (k + 1) seg' (t + dT) p' inp' (step prev inp')) as (f2 & us & xs & E2).
    exists (Nat.max f f2), ((t + dT, inp') :: us), ((t + dT, step prev inp') :: xs). cbn [walk].
    assert (E1' : (if k <=? 50 then Val (seg, p, still)
        else let* d := due kMax nSeg seg k in if (d : bool) then let* (m, p) := draw_motion rnd (Nat.max f f2) p l in Val (seg + 1, p, m) else Val (seg, p, inp))
        = Val (seg', p', inp')).
    { destruct (k <=? 50); [exact E1|]. apply obind_val in E1. destruct E1 as (d & -> & E1). cbn [obind]. destruct d; [|exact E1].
      apply obind_val in E1. destruct E1 as (a & Ea & E1). rewrite (draw_motion_more _ _ _ _ (Nat.max f f2) Ea ltac:(lia)). exact E1. }
    rewrite E1'. cbn [obind]. rewrite (walk_more l kMax nSeg dT f2 (Nat.max f f2) ltac:(lia) _ _ _ _ _ _ _ _ E2). reflexivity.
Qed.

Lemma walk_stuck : forall l kMax nSeg dT fuel, nSeg <> 0 -> (forall i, rnd i * (l_maxx l * l_dt l) < l_minx l * l_dt l)%Qc ->
  forall len k t p inp prev, k <= 51 -> 51 < k + Z.of_nat len ->
  walk rnd step fuel l kMax nSeg dT len k 0 t p inp prev = OutOfFuel.
Proof.
  intros l kMax nSeg dT fuel Hn Small. induction len as [|len IH]; intros k t p inp prev H1 H2; [lia|]. cbn [walk].
  destruct (Z.leb_spec k 50) as [Lk|Lk].
  - cbn [obind]. rewrite IH by lia. reflexivity.
  - unfold due. rewrite (proj2 (Z.eqb_neq nSeg 0) Hn). cbn [obind]. rewrite Z.mul_0_r. destruct (Z.leb_spec 0 k); [|lia].
    unfold draw_motion. rewrite draw_above_stuck by exact Small. reflexivity.
Qed.
End Walk.
Local Close Scope Z_scope.
