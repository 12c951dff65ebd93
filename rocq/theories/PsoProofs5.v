(** Times of inputs and measurements. *)
From Coq Require Import ZArith List Bool Arith Lia.
From Verif Require Import Base ListUtil Loop PsoModel PsoSpec.
Import ListNotations.
Local Open Scope nat_scope.

Lemma ascending_nth : forall l i j x y, ascending l -> i <= j -> nth_error l i = Some x -> nth_error l j = Some y -> (x <= y)%Z.
Proof.
  induction l as [|a l IH]; intros i j x y H Hij Hi Hj; [destruct i; discriminate|].
  assert (T : ascending l) by (destruct l; [exact I | apply H]).
  destruct i as [|i], j as [|j]; cbn in Hi, Hj.
  - assert (x = y) by congruence. lia.
  - destruct l as [|b l]; [destruct j; discriminate|]. injection Hi as <-. destruct H as [H _].
    assert (b <= y)%Z by (apply (IH 0 j b y T); [lia | reflexivity | exact Hj]). lia.
  - lia.
  - apply (IH i j); [exact T | lia | exact Hi | exact Hj].
Qed.

Lemma lower_bound_ok : forall l t fuel first len, ascending l -> len < fuel -> first + len <= length l ->
  (forall i x, i < first -> nth_error l i = Some x -> (x < t)%Z) -> (forall i x, first + len <= i -> nth_error l i = Some x -> (t <= x)%Z) ->
  exists k, lower_bound fuel l first len t = Val k /\ k <= length l /\
    (forall i x, i < k -> nth_error l i = Some x -> (x < t)%Z) /\ (forall i x, k <= i -> nth_error l i = Some x -> (t <= x)%Z).
Proof.
  intros l t fuel. induction fuel as [|f IH]; intros first len Ha Hf Hl H1 H2; [lia|]. cbn [lower_bound].
  destruct (Nat.eqb_spec len 0) as [->|Hn].
  - exists first. rewrite Nat.add_0_r in H2. split; [reflexivity|]. split; [lia | auto].
  - assert (Hh : len / 2 < len) by (apply Nat.div_lt; lia). set (half := len / 2) in *.
    destruct (nth_error_ex _ l (first + half) ltac:(lia)) as [x Ex]. rewrite Ex. cbn [of_option obind].
    destruct (Z.ltb_spec x t) as [Hx|Hx].
    + apply IH; [exact Ha | lia | lia | |].
      * intros i y Hi Ey. assert (y <= x)%Z by (eapply ascending_nth; [exact Ha | | exact Ey | exact Ex]; lia). lia.
      * intros i y Hi Ey. apply (H2 i y); [lia | exact Ey].
    + apply IH; [exact Ha | lia | lia | exact H1 |].
      intros i y Hi Ey. assert (x <= y)%Z by (eapply ascending_nth; [exact Ha | | exact Ex | exact Ey]; lia). lia.
Qed.

(** lower_bound always ends, inside the vector or at its end, sorted or not. *)
Lemma lower_bound_val : forall l t fuel first len, len < fuel -> first + len <= length l -> exists k, lower_bound fuel l first len t = Val k /\ k <= length l.
Proof.
  intros l t fuel. induction fuel as [|f IH]; intros first len Hf Hl; [lia|]. cbn [lower_bound].
  destruct (Nat.eqb_spec len 0) as [->|Hn]; [exists first; split; [reflexivity | lia]|].
  assert (Hh : len / 2 < len) by (apply Nat.div_lt; lia). set (half := len / 2) in *.
  destruct (nth_error_ex _ l (first + half) ltac:(lia)) as [x Ex]. rewrite Ex. cbn [of_option obind].
  destruct (x <? t)%Z; apply IH; lia.
Qed.

Section Batch.
Context {I M : Type}.
Variable itime : I -> Z.
Variable mtime : M -> Z.
Notation batch := (batch (I := I) (M := M)).

Lemma resize_length : forall {B} n (x : B) l, length (resize n x l) = n.
Proof. intros. unfold resize. rewrite app_length, firstn_length, repeat_length. lia. Qed.

Definition sized (b : batch) : Prop := length (times b) <= length (zs b).

Lemma meas_shape : forall z (b b' : batch), addMeasurement mtime z b = Val b' -> exists k l, nth_error (times b) k = Some (mtime z) /\ nth_error (zs b) k = Some l /\
  b' = BT (inputs b) (times b) (upd (zs b) k (l ++ [z])).
Proof.
  intros z b b' H. unfold addMeasurement in H. destruct (lower_bound _ _ _ _ _) as [k| |]; cbn [obind] in H; try discriminate.
  destruct (nth_error (times b) k) as [t|] eqn:Et; [|discriminate]. destruct (Z.eqb_spec t (mtime z)) as [->|]; [|discriminate].
  destruct (nth_error (zs b) k) as [l|] eqn:El; [|discriminate]. cbn in H. injection H as <-. eauto.
Qed.

Lemma built_sized : forall b, built itime mtime b -> sized b /\ ((times b = map itime (inputs b)) \/ (exists us, inputs b = us /\ times b = 0%Z :: map itime us)).
Proof.
  intros b H. induction H as [|b u H [S T]|b us H [S T]|b z b' H [S T] E].
  - split; [unfold sized; cbn; lia | left; reflexivity].
  - split.
    + unfold sized. cbn [times zs addInput]. rewrite resize_length, !app_length. cbn. destruct T as [-> | (us & <- & ->)]; cbn; rewrite map_length; lia.
    + cbn. destruct T as [-> | (us & <- & ->)]; [left | right; eexists; split; [reflexivity|]]; rewrite map_app; reflexivity.
  - split; [unfold sized; cbn [times zs setInputs length]; rewrite resize_length, map_length; lia | right; exists us; auto].
  - destruct (meas_shape _ _ _ E) as (k & l & _ & _ & ->). split; [unfold sized in *; cbn; rewrite upd_length; exact S | exact T].
Qed.

Theorem measurement_stored : forall b z, built itime mtime b -> ascending (times b) ->
  (In (mtime z) (times b) -> exists k l, first_at (times b) (mtime z) k /\ nth_error (zs b) k = Some l /\
     addMeasurement mtime z b = Val (BT (inputs b) (times b) (upd (zs b) k (l ++ [z])))) /\
  (~ In (mtime z) (times b) -> (exists t, In t (times b) /\ (mtime z < t)%Z) -> addMeasurement mtime z b = UB Aborted) /\
  ((forall t, In t (times b) -> (t < mtime z)%Z) -> addMeasurement mtime z b = UB BadIterator).
Proof.
  intros b z Hb Ha. destruct (built_sized b Hb) as [Sz _]. unfold sized in Sz.
  destruct (lower_bound_ok (times b) (mtime z) (S (length (times b))) 0 (length (times b)) Ha ltac:(lia) ltac:(lia)) as (k & E & Lk & K1 & K2).
  { intros i x Hi. lia. }
  { intros i x Hi Ex. apply nth_error_lt in Ex. lia. }
  unfold addMeasurement. rewrite E. cbn [obind]. split; [|split].
  - intro Hin. apply In_nth_error in Hin. destruct Hin as [j Hj].
    assert (Hkj : k <= j). { destruct (le_lt_dec k j); [assumption|]. specialize (K1 j _ l Hj). lia. }
    pose proof (nth_error_lt _ _ _ _ Hj) as Lj. destruct (nth_error_ex _ (times b) k ltac:(lia)) as [t Et]. rewrite Et.
    assert (t = mtime z). { pose proof (K2 k t (le_n k) Et). pose proof (ascending_nth _ _ _ _ _ Ha Hkj Et Hj). lia. }
    subst t. rewrite Z.eqb_refl. destruct (nth_error_ex _ (zs b) k ltac:(lia)) as [l El]. rewrite El. cbn. exists k, l. split; [|auto].
    split; [exact Et|]. intros i x Hi Ex. specialize (K1 _ _ Hi Ex). lia.
  - intros Hni (t & Hin & Ht). apply In_nth_error in Hin. destruct Hin as [j Hj].
    assert (Hkj : k <= j). { destruct (le_lt_dec k j); [assumption|]. specialize (K1 j _ l Hj). lia. }
    pose proof (nth_error_lt _ _ _ _ Hj) as Lj. destruct (nth_error_ex _ (times b) k ltac:(lia)) as [x Ex]. rewrite Ex.
    destruct (Z.eqb_spec x (mtime z)) as [->|]; [|reflexivity]. exfalso. apply Hni. eapply nth_error_In, Ex.
  - intro Hall. destruct (nth_error (times b) k) as [x|] eqn:Ex; [|reflexivity]. specialize (Hall x (nth_error_In _ _ Ex)). specialize (K2 k x (le_n k) Ex). lia.
Qed.

(** Never stored at a wrong time, and never written outside, whatever the order of the calls. *)
Theorem measurement_right_time : forall b z b', built itime mtime b -> addMeasurement mtime z b = Val b' ->
  exists k l, nth_error (times b) k = Some (mtime z) /\ nth_error (zs b) k = Some l /\ b' = BT (inputs b) (times b) (upd (zs b) k (l ++ [z])).
Proof. intros b z b' _ E. apply meas_shape, E. Qed.

Theorem measurement_outcomes : forall b z, built itime mtime b ->
  (exists b', addMeasurement mtime z b = Val b') \/ addMeasurement mtime z b = UB Aborted \/ addMeasurement mtime z b = UB BadIterator.
Proof.
  intros b z Hb. destruct (built_sized b Hb) as [Sz _]. unfold sized in Sz. unfold addMeasurement.
  destruct (lower_bound_val (times b) (mtime z) (S (length (times b))) 0 (length (times b)) ltac:(lia) ltac:(lia)) as (k & E & Lk). rewrite E. cbn [obind].
  destruct (nth_error (times b) k) as [t|] eqn:Et; [|auto]. destruct (t =? mtime z)%Z; [|auto].
  pose proof (nth_error_lt _ _ _ _ Et). destruct (nth_error_ex _ (zs b) k ltac:(lia)) as [l El]. rewrite El. left. eexists. reflexivity.
Qed.

(** ** Poses and measurements *)
Lemma filled_shape : forall us b, filled itime mtime us b -> inputs b = us /\ times b = 0%Z :: map itime us /\ length (zs b) = S (length us) /\
  forall k l z, nth_error (zs b) k = Some l -> In z l -> nth_error (times b) k = Some (mtime z).
Proof.
  intros us b H. induction H as [|b z b' H (I1 & I2 & I3 & I4) E].
  - cbn [inputs times zs setInputs]. split; [reflexivity|]. split; [reflexivity|]. split; [apply resize_length|]. intros k l z Hk Hz. unfold resize in Hk. cbn [firstn app length] in Hk.
    destruct (S (length us) - 0); cbn in Hk; [destruct k; discriminate|]. destruct k; cbn in Hk; [injection Hk as <-; destruct Hz|].
    apply nth_error_In, repeat_spec in Hk. subst l. destruct Hz.
  - destruct (meas_shape _ _ _ E) as (k & l & Hk & Hl & ->). cbn. split; [exact I1|]. split; [exact I2|]. split; [rewrite upd_length; exact I3|].
    intros j m y Hj Hy. destruct (Nat.eq_dec j k) as [->|Hn].
    + rewrite nth_error_upd_eq in Hj by (eapply nth_error_lt, Hl). injection Hj as <-. apply in_app_iff in Hy. destruct Hy as [Hy|[<-|[]]]; [eapply I4; eassumption | exact Hk].
    + rewrite nth_error_upd_neq in Hj by congruence. eapply I4; eassumption.
Qed.

Lemma pose_times : forall us (b : batch) k, inputs b = us -> times b = 0%Z :: map itime us -> pose_time itime b k = nth_error (times b) k.
Proof. intros us b [|k] H1 H2; rewrite H2; [reflexivity|]. cbn. rewrite H1, nth_error_map. reflexivity. Qed.

Theorem compared_right : forall us b, filled itime mtime us b ->
  exists r, compared b = Val r /\ length r = S (length us) /\
    forall k j zl dt, nth_error r k = Some (j, zl, dt) -> j = k /\ nth_error (zs b) k = Some zl /\
      (forall z, In z zl -> pose_time itime b k = Some (mtime z)) /\
      match k with
      | 0 => dt = None
      | S k' => exists t1 t0, pose_time itime b k = Some t1 /\ pose_time itime b k' = Some t0 /\ dt = Some (t1 - t0)%Z
      end.
Proof.
  intros us b H. destruct (filled_shape us b H) as (I1 & I2 & I3 & I4). unfold compared. rewrite I1.
  pose proof (fun k => pose_times us b k I1 I2) as PT.
  assert (LT : length (times b) = S (length us)) by (rewrite I2; cbn; rewrite map_length; reflexivity).
  match goal with |- context [for_ _ ?f []] => destruct (for_inv (fun n r => length r = n /\
      forall k j zl dt, nth_error r k = Some (j, zl, dt) -> j = k /\ nth_error (zs b) k = Some zl /\
      (forall z, In z zl -> pose_time itime b k = Some (mtime z)) /\
      match k with
      | 0 => dt = None
      | S k' => exists t1 t0, pose_time itime b k = Some t1 /\ pose_time itime b k' = Some t0 /\ dt = Some (t1 - t0)%Z
      end) f (S (length us)) []) as (r & E & Lr & Hr) end.
  - split; [reflexivity|]. intros k j zl dt Hk. destruct k; discriminate.
  - intros k acc Hk [La Ha]. destruct (nth_error_ex _ (zs b) k ltac:(lia)) as [zl Ez]. rewrite Ez. cbn [of_option obind].
    assert (Sn : forall x, length (acc ++ [x]) = S k) by (intro; rewrite app_length; cbn; lia).
    assert (Sp : forall x y i, nth_error (acc ++ [x]) i = Some y -> nth_error acc i = Some y \/ (i = k /\ x = y)).
    { intros x y i Hi. destruct (lt_dec i (length acc)); [rewrite nth_error_app1 in Hi by assumption; auto|]. rewrite nth_error_app2 in Hi by lia.
      destruct (i - length acc) eqn:D; [injection Hi as ->; right; split; [lia | reflexivity] | destruct n0; discriminate]. }
    destruct k as [|k'].
    + eexists. split; [reflexivity|]. split; [apply Sn|]. intros i j zl' dt Hi. apply Sp in Hi. destruct Hi as [Hi|[-> Hi]]; [apply Ha, Hi|]. injection Hi as <- <- <-.
      split; [reflexivity|]. split; [exact Ez|]. split; [|reflexivity]. intros z Hz. rewrite PT. eapply I4; eassumption.
    + destruct (nth_error_ex _ (times b) (S k') ltac:(lia)) as [t1 E1]. destruct (nth_error_ex _ (times b) k' ltac:(lia)) as [t0 E0]. rewrite E1, E0. cbn [of_option obind].
      eexists. split; [reflexivity|]. split; [apply Sn|]. intros i j zl' dt Hi. apply Sp in Hi. destruct Hi as [Hi|[-> Hi]]; [apply Ha, Hi|]. injection Hi as <- <- <-.
      split; [reflexivity|]. split; [exact Ez|]. split; [intros z Hz; rewrite PT; eapply I4; eassumption|]. exists t1, t0. rewrite !PT. auto.
  - exists r. rewrite E. cbn [obind]. auto.
Qed.
End Batch.
