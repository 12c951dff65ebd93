(** Proofs about the tree sensor: the detection probability of one tree. *)
From Coq Require Import Reals List Bool ZArith Lra Lia.
From Verif Require Import Base AngleModel AngleProofs SensorModel SensorProofs VpModel VpSpec VpProofs.
Import ListNotations.
Local Open Scope R_scope.

Lemma score_outside : forall fuel c scan z, ~ within c z -> vp_score fuel c scan z = Val (0, false).
Proof.
  intros fuel c scan z H. unfold vp_score, within in *.
  destruct (Rlt_dec (c_bmax c) (m_b z)); [reflexivity|]. destruct (Rlt_dec (m_b z) (c_bmin c)); [reflexivity|].
  destruct (Rlt_dec (m_r z) (c_rmin c)); [reflexivity|]. destruct (Rlt_dec (c_rmax c) (m_r z)); [reflexivity|]. exfalso. lra.
Qed.

Lemma mod_add_assoc : forall b i, ((b mod 720 + i) mod 720 = (b + i) mod 720)%Z.
Proof. intros. apply Zplus_mod_idemp_l. Qed.
Lemma unblocked_mod : forall scan from b n, unblocked_beams scan from (b mod 720) n = unblocked_beams scan from b n.
Proof. intros. unfold unblocked_beams. f_equal. apply filter_ext. intro i. rewrite mod_add_assoc. reflexivity. Qed.

(** The loop of the score, when it runs. *)
Lemma loop_ok : forall fuel scan from b0 n, (722 <= fuel)%nat -> (0 <= n < 720)%Z ->
  (forall i, (i < Z.to_nat n)%nat -> ((b0 + Z.of_nat i) mod 720 < Z.of_nat (length scan))%Z) ->
  (if (0 <? ((b0 + n) mod 720 - b0 mod 720 + 720) mod 720)%Z
   then count_clear fuel scan from (b0 mod 720) ((b0 + n) mod 720) 0 else Val 0%nat) =
  Val (unblocked_beams scan from b0 (Z.to_nat n)).
Proof.
  intros fuel scan from b0 n F Hn H.
  assert (E : (((b0 + n) mod 720 - b0 mod 720 + 720) mod 720 = n)%Z).
  { rewrite <- Z.add_opp_r, <- Z.add_assoc, Zplus_mod_idemp_l.
    replace (b0 + n + (- (b0 mod 720) + 720))%Z with (n + 720 + (b0 - b0 mod 720))%Z by ring.
    rewrite Z.mod_eq by lia. rewrite (Z.mod_eq b0) by lia.
    replace (n + 720 + (b0 - (b0 - 720 * (b0 / 720))))%Z with (n + (1 + b0 / 720) * 720)%Z by ring.
    rewrite Z.div_add by lia. rewrite (Z.div_small n) by lia. ring. }
  rewrite E. destruct (Z.ltb_spec 0 n).
  - replace ((b0 + n) mod 720)%Z with ((b0 mod 720 + Z.of_nat (Z.to_nat n)) mod 720)%Z by (rewrite mod_add_assoc, Z2Nat.id by lia; reflexivity).
    rewrite count_clear_ok; [|lia|lia|apply Z.mod_pos_bound; lia|].
    + rewrite unblocked_mod. reflexivity.
    + intros i Hi. rewrite mod_add_assoc. apply H. exact Hi.
  - replace n with 0%Z by lia. reflexivity.
Qed.
Lemma loop_out : forall fuel scan from b0 n, (722 <= fuel)%nat -> (0 <= n < 720)%Z ->
  (exists i, (i < Z.to_nat n)%nat /\ (Z.of_nat (length scan) <= (b0 + Z.of_nat i) mod 720)%Z) ->
  (if (0 <? ((b0 + n) mod 720 - b0 mod 720 + 720) mod 720)%Z
   then count_clear fuel scan from (b0 mod 720) ((b0 + n) mod 720) 0 else Val 0%nat) = UB OutOfBounds.
Proof.
  intros fuel scan from b0 n F Hn (i & Hi & H).
  assert (E : (((b0 + n) mod 720 - b0 mod 720 + 720) mod 720 = n)%Z).
  { rewrite <- Z.add_opp_r, <- Z.add_assoc, Zplus_mod_idemp_l.
    replace (b0 + n + (- (b0 mod 720) + 720))%Z with (n + 720 + (b0 - b0 mod 720))%Z by ring.
    rewrite Z.mod_eq by lia. rewrite (Z.mod_eq b0) by lia.
    replace (n + 720 + (b0 - (b0 - 720 * (b0 / 720))))%Z with (n + (1 + b0 / 720) * 720)%Z by ring.
    rewrite Z.div_add by lia. rewrite (Z.div_small n) by lia. ring. }
  rewrite E. destruct (Z.ltb_spec 0 n); [|lia].
  replace ((b0 + n) mod 720)%Z with ((b0 mod 720 + Z.of_nat (Z.to_nat n)) mod 720)%Z by (rewrite mod_add_assoc, Z2Nat.id by lia; reflexivity).
  apply count_clear_out; [lia|lia|apply Z.mod_pos_bound; lia|]. exists i. split; [exact Hi|]. rewrite mod_add_assoc. exact H.
Qed.

Lemma covers_model : forall b g, 0 <= g < PI / 2 -> covers b g (first_beam b g) (Z.to_nat (beams g)).
Proof.
  intros b g Hg. pose proof PI_RGT_0 as HP. assert (Hg2 : 0 <= g <= PI / 2) by lra. pose proof (beams_range g Hg2) as Hn. unfold covers, beam_angle.
  rewrite INR_IZR_INZ, Z2Nat.id by lia. unfold first_beam, beams.
  destruct (ceilR_spec ((b - g) * 720 / (2 * PI))) as (A & B). destruct (floorR_spec (2 * g * 720 / (2 * PI))) as (C & D).
  set (k := ceilR _) in *. set (n := floorR _) in *.
  assert (E1 : (b - g) * 720 / (2 * PI) = (b - g) * (360 / PI)) by (field; lra).
  assert (E2 : 2 * g * 720 / (2 * PI) = 2 * g * (360 / PI)) by (field; lra). rewrite E1 in *. rewrite E2 in *.
  assert (Q : 0 < PI / 360) by lra. assert (PQ : 360 / PI * (PI / 360) = 1) by (field; lra).
  set (q := PI / 360) in *. set (h := 360 / PI) in *.
  assert (X : forall x, x * h * q = x) by (intro x; rewrite Rmult_assoc, PQ; ring).
  apply Rmult_le_compat_r with (r := q) in A; [|lra]. apply Rmult_lt_compat_r with (r := q) in B; [|lra].
  apply Rmult_le_compat_r with (r := q) in C; [|lra]. apply Rmult_lt_compat_r with (r := q) in D; [|lra].
  rewrite Rmult_plus_distr_r in B. rewrite X in *. lra.
Qed.

(** Sound counting, from the characterisation alone. *)
Lemma covers_within : forall b g k0 n i, covers b g k0 n -> (i < n)%nat -> Rabs (beam_angle (k0 + Z.of_nat i) - b) <= g.
Proof.
  intros b g k0 n i ((A & B) & C & D) Hi. pose proof PI_RGT_0 as HP. unfold beam_angle in *. rewrite plus_IZR.
  assert (I0 : 0 <= IZR (Z.of_nat i)) by (apply IZR_le; lia).
  assert (I1 : IZR (Z.of_nat i) + 1 <= INR n) by (rewrite INR_IZR_INZ, <- plus_IZR; apply IZR_le; lia).
  set (q := PI / 360) in *. assert (Q : 0 < q) by (unfold q; lra).
  assert (U : (IZR (Z.of_nat i) + 1) * q <= INR n * q) by (apply Rmult_le_compat_r; lra).
  assert (V : 0 <= IZR (Z.of_nat i) * q) by (apply Rmult_le_pos; lra).
  rewrite !Rmult_plus_distr_r in *. apply Rabs_le. lra.
Qed.
(** Almost complete: a beam whose angle lies within the half angle is counted, but perhaps not the last one. *)
Lemma covers_complete : forall b g k0 n k, covers b g k0 n -> Rabs (beam_angle k - b) <= g ->
  (k0 <= k <= k0 + Z.of_nat n)%Z.
Proof.
  intros b g k0 n k ((A & B) & C & D) Hk. pose proof PI_RGT_0 as HP. unfold beam_angle in *.
  assert (Hk' : b - g <= IZR k * (PI / 360) <= b + g) by (unfold Rabs in Hk; destruct (Rcase_abs _) in Hk; lra).
  set (q := PI / 360) in *. assert (Q : 0 < q) by (unfold q; lra). rewrite INR_IZR_INZ in *. split.
  - apply Z.lt_succ_r. unfold Z.succ. apply lt_IZR. rewrite plus_IZR. apply Rmult_lt_reg_r with q; [exact Q|]. rewrite Rmult_plus_distr_r. lra.
  - apply Z.lt_succ_r. unfold Z.succ. apply lt_IZR. rewrite !plus_IZR. apply Rmult_lt_reg_r with q; [exact Q|]. rewrite !Rmult_plus_distr_r in *. lra.
Qed.
Lemma covers_unique : forall b g k0 n k1 m, covers b g k0 n -> covers b g k1 m -> k0 = k1 /\ n = m.
Proof.
  intros b g k0 n k1 m ((A & B) & C & D) ((A' & B') & C' & D'). pose proof PI_RGT_0 as HP. unfold beam_angle in *.
  set (q := PI / 360) in *. assert (Q : 0 < q) by (unfold q; lra). rewrite !INR_IZR_INZ in *. split.
  - assert (k0 < k1 + 1)%Z by (apply lt_IZR; rewrite plus_IZR; apply Rmult_lt_reg_r with q; [exact Q|]; rewrite Rmult_plus_distr_r; lra).
    assert (k1 < k0 + 1)%Z by (apply lt_IZR; rewrite plus_IZR; apply Rmult_lt_reg_r with q; [exact Q|]; rewrite Rmult_plus_distr_r; lra). lia.
  - assert (Z.of_nat n < Z.of_nat m + 1)%Z by (apply lt_IZR; rewrite plus_IZR; apply Rmult_lt_reg_r with q; [exact Q|]; lra).
    assert (Z.of_nat m < Z.of_nat n + 1)%Z by (apply lt_IZR; rewrite plus_IZR; apply Rmult_lt_reg_r with q; [exact Q|]; lra). lia.
Qed.

Lemma score_val : forall fuel c scan z k0 n, (722 <= fuel)%nat -> within c z -> 0 < m_r z -> 0 <= m_d z ->
  - PI <= m_b z <= PI -> c_tab c <> [] ->
  covers (m_b z) (atan (m_d z / 2 / m_r z)) k0 n ->
  (forall i, (i < n)%nat -> ((k0 + Z.of_nat i) mod 720 < Z.of_nat (length scan))%Z) ->
  exists v close, vp_score fuel c scan z = Val (v, close) /\
    ((n < length (c_tab c))%nat -> nth n (c_tab c) 0 = 0 -> v = 0) /\
    (((n < length (c_tab c))%nat -> nth n (c_tab c) 0 <> 0) ->
       v = table_at (c_tab c) (unblocked_beams scan (m_r z - m_d z / 2 - 18 / 100) k0 n)) /\
    (close = true <-> (n < length (c_tab c))%nat /\ nth n (c_tab c) 0 < c_buf c /\ v <> 0).
Proof.
  intros fuel c scan z k0 n F W Hr Hd Hb Ht Hc Hreads.
  assert (Hd2 : 0 <= m_d z / 2) by lra.
  destruct (half_angle_spec (m_d z / 2) (m_r z) Hr Hd2) as (Hg & Gr). set (g := atan (m_d z / 2 / m_r z)) in *.
  destruct (covers_unique _ _ _ _ _ _ Hc (covers_model (m_b z) g Gr)) as (-> & ->).
  assert (Gr2 : 0 <= g <= PI / 2) by lra. pose proof (beams_range g Gr2) as Hn. pose proof (first_range (m_b z) g Hb Gr2) as Hf.
  set (N := beams g) in *. set (b0 := first_beam (m_b z) g) in *.
  unfold vp_score. destruct W as (W1 & W2).
  destruct (Rlt_dec (c_bmax c) (m_b z)); [lra|]. destruct (Rlt_dec (m_b z) (c_bmin c)); [lra|].
  destruct (Rlt_dec (m_r z) (c_rmin c)); [lra|]. destruct (Rlt_dec (c_rmax c) (m_r z)); [lra|].
  rewrite Hg. cbn [of_option obind]. fold N b0.
  assert (K : ((0 <=? N)%Z && (N <? Z.of_nat (length (c_tab c)))%Z)%bool = (Z.to_nat N <? length (c_tab c))%nat).
  { destruct (Z.leb_spec 0 N); [|lia]. cbn [andb].
    destruct (Z.ltb_spec N (Z.of_nat (length (c_tab c)))); destruct (Nat.ltb_spec (Z.to_nat N) (length (c_tab c))); try lia; reflexivity. }
  rewrite K. set (full := nth (Z.to_nat N) (c_tab c) 0).
  destruct ((Z.to_nat N <? length (c_tab c))%nat && (if Req_EM_T full 0 then true else false))%bool eqn:Z0.
  - apply andb_true_iff in Z0. destruct Z0 as (Z1 & Z2). apply Nat.ltb_lt in Z1. destruct (Req_EM_T full 0) as [Z3|]; [|discriminate].
    exists 0, false. split; [reflexivity|]. split; [reflexivity|]. split; [intro X; exfalso; exact (X Z1 Z3)|].
    split; [discriminate|]. intros (_ & _ & X). exfalso. apply X. reflexivity.
  - rewrite !beam720_mod by lia. cbn [obind]. rewrite loop_ok; [|exact F|exact Hn|exact Hreads]. cbn [obind].
    replace (m_r z - m_d z / 2 - 6 * (3 / 100)) with (m_r z - m_d z / 2 - 18 / 100) by lra.
    set (k := unblocked_beams scan _ b0 _).
    assert (L : (0 < length (c_tab c))%nat) by (destruct (c_tab c); [congruence|cbn; lia]).
    assert (E : entry (c_tab c) (if (length (c_tab c) <=? k)%nat then (Z.of_nat (length (c_tab c)) - 1)%Z else Z.of_nat k) =
                Val (table_at (c_tab c) k)).
    { unfold table_at. destruct (Nat.leb_spec (length (c_tab c)) k).
      - rewrite entry_val by lia. f_equal. f_equal. lia.
      - rewrite entry_val by lia. f_equal. f_equal. lia. }
    rewrite E. cbn [obind]. eexists. eexists. split; [reflexivity|]. split; [|split].
    + intros X Y. exfalso. apply Nat.ltb_lt in X. rewrite X in Z0. fold full in Y. destruct (Req_EM_T full 0); [discriminate|contradiction].
    + reflexivity.
    + fold full. destruct (Req_EM_T (table_at (c_tab c) k) 0) as [V|V].
      * split; [discriminate|]. intros (_ & _ & X). contradiction.
      * destruct (Nat.ltb_spec (Z.to_nat N) (length (c_tab c))); cbn [andb].
        -- destruct (Rlt_dec full (c_buf c)); split; try discriminate; try tauto. 
        -- split; [discriminate|]. intros (X & _). lia.
Qed.

Lemma score_out : forall fuel c scan z k0 n, (722 <= fuel)%nat -> within c z -> 0 < m_r z -> 0 <= m_d z ->
  - PI <= m_b z <= PI ->
  covers (m_b z) (atan (m_d z / 2 / m_r z)) k0 n ->
  ((n < length (c_tab c))%nat -> nth n (c_tab c) 0 <> 0) ->
  (exists i, (i < n)%nat /\ (Z.of_nat (length scan) <= (k0 + Z.of_nat i) mod 720)%Z) ->
  vp_score fuel c scan z = UB OutOfBounds.
Proof.
  intros fuel c scan z k0 n F W Hr Hd Hb Hc Hnz Hout.
  assert (Hd2 : 0 <= m_d z / 2) by lra.
  destruct (half_angle_spec (m_d z / 2) (m_r z) Hr Hd2) as (Hg & Gr). set (g := atan (m_d z / 2 / m_r z)) in *.
  destruct (covers_unique _ _ _ _ _ _ Hc (covers_model (m_b z) g Gr)) as (-> & ->).
  assert (Gr2 : 0 <= g <= PI / 2) by lra. pose proof (beams_range g Gr2) as Hn. pose proof (first_range (m_b z) g Hb Gr2) as Hf.
  set (N := beams g) in *. set (b0 := first_beam (m_b z) g) in *.
  unfold vp_score. destruct W as (W1 & W2).
  destruct (Rlt_dec (c_bmax c) (m_b z)); [lra|]. destruct (Rlt_dec (m_b z) (c_bmin c)); [lra|].
  destruct (Rlt_dec (m_r z) (c_rmin c)); [lra|]. destruct (Rlt_dec (c_rmax c) (m_r z)); [lra|].
  rewrite Hg. cbn [of_option obind]. fold N b0.
  assert (K : ((0 <=? N)%Z && (N <? Z.of_nat (length (c_tab c)))%Z)%bool = (Z.to_nat N <? length (c_tab c))%nat).
  { destruct (Z.leb_spec 0 N); [|lia]. cbn [andb].
    destruct (Z.ltb_spec N (Z.of_nat (length (c_tab c)))); destruct (Nat.ltb_spec (Z.to_nat N) (length (c_tab c))); try lia; reflexivity. }
  rewrite K. set (full := nth (Z.to_nat N) (c_tab c) 0) in *.
  assert (Z0 : ((Z.to_nat N <? length (c_tab c))%nat && (if Req_EM_T full 0 then true else false))%bool = false).
  { destruct (Nat.ltb_spec (Z.to_nat N) (length (c_tab c))); [|reflexivity]. destruct (Req_EM_T full 0); [exfalso; apply Hnz; assumption|reflexivity]. }
  rewrite Z0. rewrite !beam720_mod by lia. cbn [obind]. rewrite loop_out; [|exact F|exact Hn|exact Hout]. reflexivity.
Qed.


Lemma reads_dec : forall (scan : list R) k0 n,
  (forall i, (i < n)%nat -> ((k0 + Z.of_nat i) mod 720 < Z.of_nat (length scan))%Z) \/
  (exists i, (i < n)%nat /\ (Z.of_nat (length scan) <= (k0 + Z.of_nat i) mod 720)%Z).
Proof.
  intros scan k0 n. induction n as [|n IH]; [left; intros; lia|]. destruct IH as [A|(i & Hi & A)].
  - destruct (Z_lt_le_dec ((k0 + Z.of_nat n) mod 720) (Z.of_nat (length scan))) as [L|L].
    + left. intros i Hi. destruct (Nat.eq_dec i n) as [->|]; [exact L|]. apply A. lia.
    + right. exists n. split; [lia|exact L].
  - right. exists i. split; [lia|exact A].
Qed.

(** Beams of a tree in front are within a half scan. *)
Lemma front_reads : forall b g k0 n, 0 <= b - g -> b + g <= PI -> covers b g k0 n ->
  forall i, (i < n)%nat -> ((k0 + Z.of_nat i) mod 720 < 361)%Z.
Proof.
  intros b g k0 n L U Hc i Hi. pose proof (covers_within _ _ _ _ _ Hc Hi) as W. pose proof PI_RGT_0 as HP. unfold beam_angle in W.
  assert (B : 0 <= IZR (k0 + Z.of_nat i) * (PI / 360) <= PI) by (unfold Rabs in W; destruct (Rcase_abs _) in W; lra).
  set (k := (k0 + Z.of_nat i)%Z) in *.
  assert (0 <= k)%Z.
  { apply le_IZR. destruct (Rle_lt_dec 0 (IZR k)) as [|N]; [assumption|]. exfalso. assert (IZR k * (PI / 360) < 0) by nra. lra. }
  assert (k <= 360)%Z.
  { apply le_IZR. destruct (Rle_lt_dec (IZR k) 360) as [|N]; [assumption|]. exfalso. assert (PI < IZR k * (PI / 360)) by nra. lra. }
  rewrite Z.mod_small by lia. lia.
Qed.
