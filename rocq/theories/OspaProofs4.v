(** OSPA and COLA as seen by the caller. *)
From Coq Require Import ZArith List Bool Arith QArith Qcanon Lia Permutation.
From Verif Require Import Base ListUtil QcLra OspaModel OspaSpec OspaProofs OspaProofs2 OspaProofs3.
Import ListNotations.
Local Open Scope Z_scope.

Section User.
Context {A : Type}.
Variable d : A -> A -> Z.
Variable c : Z.

Lemma ospa_1 : forall X Y, X ++ Y <> [] -> exists v, least d 1 c X Y v /\
  ospaError d c 1 X Y = Val (QcZ v / QcN (Nat.max (length X) (length Y)))%Qc.
Proof.
  intros X Y Hne. destruct (ospa_main d c X Y) as (o & M & R & E & HM & _ & Hmin & He & _).
  exists (match_cost d 1 c X Y M). split; [split; [eauto|auto]|]. unfold ospaError. rewrite E. cbn [obind]. now rewrite (He Hne 1%nat true true).
Qed.

Lemma max_pos : forall (X Y : list A), X ++ Y <> [] -> (0 < QcN (Nat.max (length X) (length Y)))%Qc.
Proof.
  intros X Y H. rewrite <- QcN_0. apply QcN_lt. destruct X; [|cbn [length]; lia]. destruct Y; [now destruct H|cbn [length]; lia].
Qed.

Theorem ospa_symmetric : forall X Y, X ++ Y <> [] -> ospaError d c 1 X Y = ospaError (fun x y => d y x) c 1 Y X.
Proof.
  intros X Y Hne. destruct (ospa_1 X Y Hne) as (v & Hv & ->).
  assert (Hne' : Y ++ X <> []) by (intros H; apply app_eq_nil in H; destruct H as [-> ->]; now apply Hne).
  unfold ospaError. destruct (ospa_main (fun x y => d y x) c Y X) as (o & M & R & E & HM & _ & Hmin & He & _). rewrite E. cbn [obind].
  rewrite (He Hne' 1%nat true true). cbn [obind fst]. f_equal. rewrite Nat.max_comm. f_equal. f_equal.
  eapply least_unique; [apply least_swap; exact Hv|]. split; eauto.
Qed.

Theorem ospa_range : forall X Y, 0 <= c -> (forall x y, 0 <= d x y) -> X ++ Y <> [] ->
  exists e, ospaError d c 1 X Y = Val e /\ (0 <= e)%Qc /\ (e <= QcZ c)%Qc.
Proof.
  intros X Y Hc Hd Hne. destruct (ospa_1 X Y Hne) as (v & Hv & ->). eexists. split; [reflexivity|].
  assert (R := least_range d c X Y v Hc Hd Hv). assert (P := max_pos X Y Hne). split.
  - apply Qcle_div; [auto|]. rewrite Qcmult_0_l. change (0%Qc) with (QcZ 0). apply QcZ_le. lia.
  - apply Qcdiv_le; [auto|]. unfold QcN. rewrite <- QcZ_mul. apply QcZ_le. lia.
Qed.

Lemma div_zero : forall v (n : Qc), (0 < n)%Qc -> ((QcZ v / n)%Qc = 0%Qc <-> v = 0).
Proof.
  intros v n Hn. split.
  - intros H. apply QcZ_inj. change (QcZ 0) with 0%Qc. rewrite <- (Qcdiv_mul (QcZ v) n) by now apply Qcpos_neq. rewrite H. ring.
  - intros ->. change (QcZ 0) with 0%Qc. unfold Qcdiv. ring.
Qed.

Theorem ospa_zero : forall X Y, 0 < c -> metric d -> X ++ Y <> [] ->
  (ospaError d c 1 X Y = Val 0%Qc <-> Permutation X Y).
Proof.
  intros X Y Hc (Hd & H0 & _) Hne. destruct (ospa_1 X Y Hne) as (v & Hv & ->).
  rewrite <- (least_zero d c X Y v Hc Hd H0 Hv), <- (div_zero v _ (max_pos X Y Hne)). split; [congruence|now intros ->].
Qed.

(** COLA. *)
Theorem cola_value : forall X Y p, X ++ Y <> [] -> c <> 0 ->
  exists e, ospaError d c p X Y = Val e /\
    colaErr d c p X Y = Val (e * QcN (Nat.max (length X) (length Y)) / QcZ (c ^ Z.of_nat p))%Qc.
Proof.
  intros X Y p Hne Hc. destruct (ospa_main d c X Y) as (o & M & R & E & _ & _ & _ & He & _ & _ & _ & _ & Ec & En).
  unfold ospaError, colaErr, colaError. rewrite E. cbn [obind]. rewrite (He Hne p true true). cbn [obind fst snd].
  eexists. split; [reflexivity|]. rewrite Ec, En. apply Z.eqb_neq in Hc. rewrite Hc. reflexivity.
Qed.

Lemma cola_1 : forall X Y, X ++ Y <> [] -> c <> 0 -> exists v, least d 1 c X Y v /\ colaErr d c 1 X Y = Val (QcZ v / QcZ c)%Qc.
Proof.
  intros X Y Hne Hc. destruct (ospa_1 X Y Hne) as (v & Hv & E). exists v. split; [auto|].
  destruct (cola_value X Y 1 Hne Hc) as (e & E1 & ->). rewrite E in E1. injection E1 as <-. change (Z.of_nat 1) with 1. rewrite Z.pow_1_r.
  rewrite Qcdiv_mul by (apply Qcpos_neq, max_pos; auto). reflexivity.
Qed.

Theorem cola_zero : forall X Y, 0 < c -> metric d -> X ++ Y <> [] -> (colaErr d c 1 X Y = Val 0%Qc <-> Permutation X Y).
Proof.
  intros X Y Hc (Hd & H0 & _) Hne. destruct (cola_1 X Y Hne ltac:(lia)) as (v & Hv & ->).
  rewrite <- (least_zero d c X Y v Hc Hd H0 Hv). rewrite <- (div_zero v (QcZ c)).
  - split; [congruence|now intros ->].
  - change 0%Qc with (QcZ 0). now apply QcZ_lt.
Qed.

Theorem cola_symmetric : forall X Y, X ++ Y <> [] -> c <> 0 -> colaErr d c 1 X Y = colaErr (fun x y => d y x) c 1 Y X.
Proof.
  intros X Y Hne Hc. destruct (cola_value X Y 1 Hne Hc) as (e & E & ->).
  assert (S1 := ospa_symmetric X Y Hne). rewrite E in S1. unfold ospaError in S1. unfold colaErr, colaError.
  destruct (ospa_main (fun x y => d y x) c Y X) as (o & M & R & E' & _ & _ & _ & _ & _ & _ & _ & _ & Ec & En). rewrite E' in *. cbn [obind] in *.
  destruct (calcError o 1 true true) as [r| |]; cbn [obind] in *; try discriminate. injection S1 as ->.
  rewrite Ec, En. apply Z.eqb_neq in Hc. rewrite Hc. cbn [obind fst]. now rewrite Nat.max_comm.
Qed.

(** Triangle inequality. *)
Lemma tri_arith : forall u v w c a b m k, 0 <= c -> 0 <= u -> 0 <= v -> 0 <= w <= c * m -> 0 <= k -> 0 <= a -> 0 <= b -> 0 <= m ->
  (k <= m -> a <= m /\ b <= m) -> (m <= k -> a = k /\ b = k) -> m + k <= a + b ->
  w + c * (a + b - m - k) <= u + v -> w * (a * b) <= (u * b + v * a) * m.
Proof.
  intros u v w c0 a b m k Hc Hu Hv Hw Hk Ha Hb Hm H1 H2 Hs H. destruct (Z.le_ge_cases k m) as [L|L].
  - destruct (H1 L) as [La Lb]. assert (w <= u + v) by nia.
    assert (w * (a * b) <= (u + v) * (a * b)) by (apply Z.mul_le_mono_nonneg_r; nia).
    assert (u * (a * b) <= u * (b * m)) by (apply Z.mul_le_mono_nonneg_l; nia).
    assert (v * (a * b) <= v * (a * m)) by (apply Z.mul_le_mono_nonneg_l; nia). nia.
  - destruct (H2 L) as [-> ->]. replace (k + k - m - k) with (k - m) in H by lia.
    assert (Q : w * k <= m * (u + v)).
    { replace (w * k) with (w * m + w * (k - m)) by ring. assert (w * (k - m) <= c0 * m * (k - m)) by (apply Z.mul_le_mono_nonneg_r; lia). nia. }
    assert (w * k * k <= m * (u + v) * k) by (apply Z.mul_le_mono_nonneg_r; lia). nia.
Qed.

Lemma frac_le : forall u v w a b m, (0 < QcN a)%Qc -> (0 < QcN b)%Qc -> (0 < QcN m)%Qc ->
  w * (Z.of_nat a * Z.of_nat b) <= (u * Z.of_nat b + v * Z.of_nat a) * Z.of_nat m ->
  (QcZ w / QcN m <= QcZ u / QcN a + QcZ v / QcN b)%Qc.
Proof.
  intros u v w a b m Ha Hb Hm H. apply Qcdiv_le; [auto|]. apply (Qcmul_le _ _ (QcN a * QcN b)%Qc).
  - replace 0%Qc with (0 * QcN b)%Qc by ring. now apply Qcmul_lt.
  - replace ((QcZ u / QcN a + QcZ v / QcN b) * QcN m * (QcN a * QcN b))%Qc with ((QcZ u * QcN b + QcZ v * QcN a) * QcN m)%Qc.
    + unfold QcN. rewrite <- !QcZ_mul, <- QcZ_add, <- QcZ_mul. now apply QcZ_le.
    + field. split; now apply Qcpos_neq.
Qed.

Theorem ospa_triangle : forall X Y Z0, 0 <= c -> (forall x y, 0 <= d x y) -> (forall x y z, d x z <= d x y + d y z) ->
  X ++ Y <> [] -> Y ++ Z0 <> [] -> X ++ Z0 <> [] ->
  exists e f g, ospaError d c 1 X Y = Val e /\ ospaError d c 1 Y Z0 = Val f /\ ospaError d c 1 X Z0 = Val g /\ (g <= e + f)%Qc.
Proof.
  intros X Y Z0 Hc Hd Ht H1 H2 H3. destruct (ospa_1 X Y H1) as (u & Hu & ->). destruct (ospa_1 Y Z0 H2) as (v & Hv & ->).
  destruct (ospa_1 X Z0 H3) as (w & Hw & ->). do 3 eexists. do 3 (split; [reflexivity|]).
  assert (T := triangle d c X Y Z0 u v w Hc Hd Ht Hu Hv Hw).
  assert (R1 := least_range d c _ _ _ Hc Hd Hu). assert (R2 := least_range d c _ _ _ Hc Hd Hv). assert (R3 := least_range d c _ _ _ Hc Hd Hw).
  apply frac_le; try now apply max_pos. eapply tri_arith with (c := c) (k := Z.of_nat (length Y)); try lia; try exact T.
Qed.

Theorem cola_triangle : forall X Y Z0, 0 < c -> (forall x y, 0 <= d x y) -> (forall x y z, d x z <= d x y + d y z) ->
  X ++ Y <> [] -> Y ++ Z0 <> [] -> X ++ Z0 <> [] ->
  exists e f g, colaErr d c 1 X Y = Val e /\ colaErr d c 1 Y Z0 = Val f /\ colaErr d c 1 X Z0 = Val g /\ (g <= e + f)%Qc.
Proof.
  intros X Y Z0 Hc Hd Ht H1 H2 H3. destruct (cola_1 X Y H1 ltac:(lia)) as (u & Hu & ->). destruct (cola_1 Y Z0 H2 ltac:(lia)) as (v & Hv & ->).
  destruct (cola_1 X Z0 H3 ltac:(lia)) as (w & Hw & ->). do 3 eexists. do 3 (split; [reflexivity|]).
  assert (T := triangle d c X Y Z0 u v w ltac:(lia) Hd Ht Hu Hv Hw).
  assert (Hq : (0 < QcZ c)%Qc) by (change 0%Qc with (QcZ 0); now apply QcZ_lt).
  apply Qcdiv_le; [auto|]. replace ((QcZ u / QcZ c + QcZ v / QcZ c) * QcZ c)%Qc with (QcZ u + QcZ v)%Qc by (field; now apply Qcpos_neq).
  rewrite <- QcZ_add. apply QcZ_le. nia.
Qed.

(** Other orders. *)
Theorem ospa_order_bound : forall X Y p, 0 <= c -> (forall x y, 0 <= d x y) -> X ++ Y <> [] ->
  exists e, ospaError d c (S p) X Y = Val e /\
  forall M, matching (length X) (length Y) M ->
    (e * QcN (Nat.max (length X) (length Y)) <=
     QcZ (Z.of_nat (Nat.max (length X) (length Y)) ^ Z.of_nat p * match_cost d (S p) c X Y M))%Qc.
Proof.
  intros X Y p Hc Hd Hne. destruct (ospa_main d c X Y) as (o & M & R & E & HM & _ & Hmin & He & _).
  unfold ospaError. rewrite E. cbn [obind]. rewrite (He Hne (S p) true true). cbn [obind fst]. eexists. split; [reflexivity|].
  intros M' HM'. rewrite Qcdiv_mul by (apply Qcpos_neq, max_pos; auto). apply QcZ_le. apply power_bound; auto.
Qed.
End User.
