(** The wrap loops over the reals. *)
From Coq Require Import Reals ZArith Lra Lia.
From Verif Require Import Base AngleModel.
Local Open Scope R_scope.

Lemma twopi_pos : 0 < 2 * PI.
Proof. pose proof PI_RGT_0. lra. Qed.

Lemma archimed_turns : forall a, exists n : nat, a <= INR n * (2 * PI).
Proof.
  intros a. pose proof twopi_pos as Hp.
  destruct (Rle_dec a 0) as [H|H].
  - exists 0%nat. simpl. lra.
  - assert (Ha : 0 < a / (2 * PI)) by (apply Rdiv_lt_0_compat; lra).
    destruct (archimed (a / (2 * PI))) as [H1 _].
    exists (Z.to_nat (up (a / (2 * PI)))).
    assert (Hz : (0 <= up (a / (2 * PI)))%Z) by (apply le_IZR; lra).
    rewrite INR_IZR_INZ, Z2Nat.id by exact Hz.
    apply Rlt_le. apply (Rmult_lt_reg_r (/ (2 * PI))); [apply Rinv_0_lt_compat; exact Hp|].
    rewrite Rmult_assoc, Rinv_r by lra. unfold Rdiv in H1. lra.
Qed.

(** First loop. *)
Lemma wrap_down_ok : forall n a, a <= PI + INR n * (2 * PI) ->
  exists y, (forall fuel, (n < fuel)%nat -> wrap_down fuel a = Val y) /\ y <= PI /\
    (exists k : nat, y = a - INR k * (2 * PI)) /\ (a <= PI -> y = a) /\ (PI < a -> - PI < y).
Proof.
  pose proof twopi_pos as Hp.
  induction n as [|n IH]; intros a Ha.
  - simpl in Ha. exists a. split.
    + intros [|f] Hf; [lia|]. cbn [wrap_down]. destruct (Rlt_dec PI a); [lra|reflexivity].
    + split; [lra|]. split; [exists 0%nat; simpl; lra|]. split; [auto|intros; lra].
  - destruct (Rlt_dec PI a) as [H|H].
    + rewrite S_INR in Ha. destruct (IH (a - 2 * PI)) as (y & H1 & H2 & (k & Hk) & H4 & H5); [lra|].
      exists y. split.
      * intros [|f] Hf; [lia|]. cbn [wrap_down]. destruct (Rlt_dec PI a); [|contradiction]. apply H1. lia.
      * split; [exact H2|]. split; [exists (S k); rewrite S_INR; lra|]. split; [intros; lra|].
        intros _. destruct (Rle_dec (a - 2 * PI) PI) as [G|G]; [rewrite (H4 G); lra|apply H5; lra].
    + exists a. split.
      * intros [|f] Hf; [lia|]. cbn [wrap_down]. destruct (Rlt_dec PI a); [contradiction|reflexivity].
      * split; [lra|]. split; [exists 0%nat; simpl; lra|]. split; [auto|intros; lra].
Qed.

Lemma wrap_up_ok : forall n a, a <= PI -> - PI - INR n * (2 * PI) <= a ->
  exists y, (forall fuel, (n < fuel)%nat -> wrap_up fuel a = Val y) /\ - PI <= y <= PI /\
    (exists k : nat, y = a + INR k * (2 * PI)) /\ (- PI <= a -> y = a) /\ (a < - PI -> y < PI).
Proof.
  pose proof twopi_pos as Hp.
  induction n as [|n IH]; intros a Hu Ha.
  - simpl in Ha. exists a. split.
    + intros [|f] Hf; [lia|]. cbn [wrap_up]. destruct (Rlt_dec a (- PI)); [lra|reflexivity].
    + split; [lra|]. split; [exists 0%nat; simpl; lra|]. split; [auto|intros; lra].
  - destruct (Rlt_dec a (- PI)) as [H|H].
    + rewrite S_INR in Ha. destruct (IH (a + 2 * PI)) as (y & H1 & H2 & (k & Hk) & H4 & H5); [lra|lra|].
      exists y. split.
      * intros [|f] Hf; [lia|]. cbn [wrap_up]. destruct (Rlt_dec a (- PI)); [|contradiction]. apply H1. lia.
      * split; [exact H2|]. split; [exists (S k); rewrite S_INR; lra|]. split; [intros; lra|].
        intros _. destruct (Rle_dec (- PI) (a + 2 * PI)) as [G|G]; [rewrite (H4 G); lra|apply H5; lra].
    + exists a. split.
      * intros [|f] Hf; [lia|]. cbn [wrap_up]. destruct (Rlt_dec a (- PI)); [contradiction|reflexivity].
      * split; [lra|]. split; [exists 0%nat; simpl; lra|]. split; [auto|intros; lra].
Qed.

(** Both loops. *)
Lemma wrap_ok : forall a, exists n y, (forall fuel, (n < fuel)%nat -> wrap fuel a = Val y) /\
  - PI <= y <= PI /\ (exists k : Z, y = a + IZR k * (2 * PI)) /\
  (- PI <= a <= PI -> y = a) /\ (PI < a -> - PI < y) /\ (a < - PI -> y < PI).
Proof.
  intros a. pose proof twopi_pos as Hp.
  destruct (archimed_turns a) as [n1 Hn1]. destruct (archimed_turns (- a)) as [n2 Hn2].
  pose proof PI_RGT_0 as HPI.
  destruct (wrap_down_ok n1 a ltac:(lra)) as (y1 & E1 & B1 & (k1 & K1) & I1 & L1).
  assert (G : - PI - INR n2 * (2 * PI) <= y1).
  { destruct (Rle_dec a PI) as [H|H]; [rewrite (I1 H); lra|].
    pose proof (L1 ltac:(lra)). pose proof (pos_INR n2). nra. }
  destruct (wrap_up_ok n2 y1 B1 G) as (y & E & B & (k2 & K2) & I2 & L2).
  exists (n1 + n2)%nat, y. split.
  - intros fuel Hf. unfold wrap. rewrite E1 by lia. cbn [obind]. apply E. lia.
  - split; [exact B|]. split.
    + exists (Z.of_nat k2 - Z.of_nat k1)%Z. rewrite minus_IZR, <- !INR_IZR_INZ. lra.
    + split; [|split].
      * intros H. rewrite I2; [apply I1; lra|]. rewrite I1; lra.
      * intros H. pose proof (L1 H). rewrite I2 by lra. exact H0.
      * intros H. assert (y1 = a) by (apply I1; lra). apply L2. lra.
Qed.

(** More fuel never changes an answer. *)
Lemma wrap_down_mono : forall f f' a y, wrap_down f a = Val y -> (f <= f')%nat -> wrap_down f' a = Val y.
Proof.
  induction f as [|f IH]; intros f' a y H Hf; cbn [wrap_down] in H; [discriminate|].
  destruct f' as [|f']; [lia|]. cbn [wrap_down]. destruct (Rlt_dec PI a); [apply IH; [exact H|lia]|exact H].
Qed.
Lemma wrap_up_mono : forall f f' a y, wrap_up f a = Val y -> (f <= f')%nat -> wrap_up f' a = Val y.
Proof.
  induction f as [|f IH]; intros f' a y H Hf; cbn [wrap_up] in H; [discriminate|].
  destruct f' as [|f']; [lia|]. cbn [wrap_up]. destruct (Rlt_dec a (- PI)); [apply IH; [exact H|lia]|exact H].
Qed.
Lemma wrap_mono : forall f f' a y, wrap f a = Val y -> (f <= f')%nat -> wrap f' a = Val y.
Proof.
  intros f f' a y H Hf. unfold wrap in *. apply obind_val in H. destruct H as (b & H1 & H2).
  rewrite (wrap_down_mono _ _ _ _ H1 Hf). cbn [obind]. exact (wrap_up_mono _ _ _ _ H2 Hf).
Qed.

(** Any answer has the properties. *)
Lemma wrap_val : forall f a y, wrap f a = Val y ->
  - PI <= y <= PI /\ (exists k : Z, y = a + IZR k * (2 * PI)) /\
  (- PI <= a <= PI -> y = a) /\ (PI < a -> - PI < y) /\ (a < - PI -> y < PI).
Proof.
  intros f a y H. destruct (wrap_ok a) as (n & y' & E & G).
  assert (y = y').
  { assert (X : wrap (f + S n) a = Val y) by (apply (wrap_mono f); [exact H|lia]).
    rewrite E in X by lia. inversion X. reflexivity. }
  subst y'. exact G.
Qed.

(** Angles that differ by turns and are both inside the open interval are equal. *)
Lemma turn_unique : forall a b k, - PI <= a <= PI -> - PI < b < PI -> a = b + IZR k * (2 * PI) -> a = b.
Proof.
  intros a b k Ha Hb E. pose proof PI_RGT_0 as HP.
  assert (Hk : k = 0%Z).
  { assert (H1 : (-1 < k)%Z) by (apply lt_IZR; nra).
    assert (H2 : (k < 1)%Z) by (apply lt_IZR; nra). lia. }
  subst k. simpl in E. lra.
Qed.

(** The innovation of the range-bearing filters. *)
Lemma innovation2_ok : forall th ze za,
  exists n r, (forall fuel, (n < fuel)%nat -> innovation2 fuel th ze za = Val r) /\
    match r with
    | Some (dr, b) => dr = fst za - fst ze /\ - PI <= b <= PI /\
        (exists k : Z, b = snd za - snd ze + IZR k * (2 * PI)) /\
        (0 < th_range th -> Rabs dr <= th_range th) /\ (0 < th_bearing th -> Rabs b <= th_bearing th)
    | None => (0 < th_range th /\ th_range th < Rabs (fst za - fst ze)) \/
        (0 < th_bearing th /\ exists b, - PI <= b <= PI /\ (exists k : Z, b = snd za - snd ze + IZR k * (2 * PI)) /\
           th_bearing th < Rabs b)
    end.
Proof.
  intros th ze za. destruct (wrap_ok (snd za - snd ze)) as (n & y & E & B & K & _).
  assert (X : forall t v, exceeds t v = true <-> (0 < t /\ t < Rabs v)).
  { intros t v. unfold exceeds. destruct (Rlt_dec 0 t); [destruct (Rlt_dec t (Rabs v))|]; split; intros; try discriminate; try lra; auto. }
  assert (Y : forall t v, exceeds t v = false -> 0 < t -> Rabs v <= t).
  { intros t v H Ht. unfold exceeds in H. destruct (Rlt_dec 0 t); [destruct (Rlt_dec t (Rabs v))|]; try discriminate; lra. }
  exists n. unfold innovation2. destruct (exceeds (th_range th) (fst za - fst ze)) eqn:E1.
  - exists None. split; [reflexivity|]. left. apply X. exact E1.
  - destruct (exceeds (th_bearing th) y) eqn:E2.
    + exists None. split.
      * intros fuel Hf. rewrite E by exact Hf. cbn [obind]. rewrite E2. reflexivity.
      * right. apply X in E2. split; [tauto|]. exists y. split; [exact B|]. split; [exact K|tauto].
    + exists (Some (fst za - fst ze, y)). split.
      * intros fuel Hf. rewrite E by exact Hf. cbn [obind]. rewrite E2. reflexivity.
      * split; [reflexivity|]. split; [exact B|]. split; [exact K|].
        split; intros; [exact (Y _ _ E1 H)|exact (Y _ _ E2 H)].
Qed.

(** Distance and innovation. *)
Lemma maha_agree : forall fuel th S ze za i, innovation2 fuel th ze za = Val (Some i) ->
  Rabs (snd za - snd ze) <= PI -> maha2 S ze za = quad2 S i.
Proof.
  intros fuel th S ze za i H Hb. unfold innovation2 in H.
  destruct (exceeds (th_range th) _); [discriminate|].
  apply obind_val in H. destruct H as (b & Hw & H).
  destruct (exceeds (th_bearing th) b); [discriminate|]. inversion H; subst i.
  destruct (wrap_val _ _ _ Hw) as (_ & _ & I & _).
  unfold maha2. rewrite I; [reflexivity|]. unfold Rabs in Hb; destruct (Rcase_abs _); lra.
Qed.
