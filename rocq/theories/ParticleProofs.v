From Coq Require Import ZArith QArith Qcanon Qround Lqa List Bool Arith Lia Permutation Sorted.
From Verif Require Import Base ListUtil QcLra ParticleModel ParticleSpec.
Import ListNotations.
Local Open Scope Qc_scope.

(** ** Weights *)

Lemma nsum_from : forall w a, fold_left nadd (map (@Some Qc) w) (Some a) = Some (a + qsum w).
Proof.
  induction w as [|x w IH]; intros a; simpl; [f_equal; ring|]. rewrite IH. f_equal. ring.
Qed.
Lemma nsum_some : forall w, nsum (map (@Some Qc) w) = Some (qsum w).
Proof. intros. unfold nsum. rewrite nsum_from. f_equal. ring. Qed.

Lemma qsum_scale : forall w c, qsum (map (fun x => x / c) w) = qsum w / c.
Proof. induction w as [|x w IH]; intros c; simpl; [unfold Qcdiv; ring|]. rewrite IH. unfold Qcdiv. ring. Qed.

Lemma map_firstn : forall A B (f : A -> B) k l, map f (firstn k l) = firstn k (map f l).
Proof. intros A B f. induction k; intros [|x l]; simpl; auto. now rewrite IHk. Qed.

Lemma norm_weights : forall P D (l : list (particle P D)) w, weights_of l w ->
  map pw (normalizeWeights l) = map (@Some Qc) (map (fun x => x / qsum w) w).
Proof.
  intros P D l w (Hm & Hn & Hs). unfold normalizeWeights. rewrite Hm, nsum_some. rewrite map_map. simpl.
  rewrite map_map. rewrite <- (map_map pw (fun a => ndiv a (Some (qsum w)))). rewrite Hm, map_map.
  apply map_ext. intros x. simpl. destruct (Qc_eq_dec (qsum w) 0) as [e|_]; auto.
  exfalso. now apply (Qcpos_neq _ Hs).
Qed.

Lemma qsum_firstn_le : forall w i j, (forall x, In x w -> 0 <= x) -> (i <= j)%nat ->
  qsum (firstn i w) <= qsum (firstn j w).
Proof.
  induction w as [|x w IH]; intros i j H Hij.
  - rewrite !firstn_nil. apply Qcle_refl.
  - destruct i as [|i].
    + simpl. apply qsum_nonneg. intros y Hy. apply H. revert Hy. clear. revert j.
      intros j Hy. rewrite <- (firstn_skipn j (x :: w)). apply in_or_app. now left.
    + destruct j as [|j]; [lia|]. simpl. assert (qsum (firstn i w) <= qsum (firstn j w)) by (apply IH; [intros; apply H; now right|lia]).
      qclra.
Qed.

Lemma firstn_S_sum : forall w i x, nth_error w i = Some x -> qsum (firstn (S i) w) = qsum (firstn i w) + x.
Proof.
  induction w as [|y w IH]; intros [|i] x H; try discriminate.
  - injection H as ->. simpl. ring.
  - change (firstn (S (S i)) (y :: w)) with (y :: firstn (S i) w). change (firstn (S i) (y :: w)) with (y :: firstn i w).
    cbn [qsum]. rewrite (IH i x H). ring.
Qed.

(** ** Sampling *)

Lemma skipn_cons : forall A (l : list A) i x, nth_error l i = Some x -> skipn i l = x :: skipn (S i) l.
Proof. intros A. induction l as [|y l IH]; intros [|i] x H; try discriminate; simpl in *; [now injection H as ->|now apply IH]. Qed.

Lemma advance_ok : forall v m idx sp, (m = length v - idx)%nat -> (idx < length v)%nat -> sp <= qsum v ->
  exists idx', advance (Some sp) idx (Some (qsum (firstn (S idx) v))) (map (@Some Qc) (skipn (S idx) v)) =
     Val (idx', Some (qsum (firstn (S idx') v)), map (@Some Qc) (skipn (S idx') v)) /\
  (idx <= idx' < length v)%nat /\ (idx' = idx \/ qsum (firstn idx' v) < sp) /\ sp <= qsum (firstn (S idx') v).
Proof.
  intros v. induction m as [|m IH]; intros idx sp Hm Hi Hs; [lia|].
  assert (Hstep : advance (Some sp) idx (Some (qsum (firstn (S idx) v))) (map (@Some Qc) (skipn (S idx) v)) =
    if Qcltb (qsum (firstn (S idx) v)) sp then
      match map (@Some Qc) (skipn (S idx) v) with
      | [] => UB OutOfBounds
      | w :: r => advance (Some sp) (S idx) (nadd (Some (qsum (firstn (S idx) v))) w) r
      end else Val (idx, Some (qsum (firstn (S idx) v)), map (@Some Qc) (skipn (S idx) v))).
  { destruct (map (@Some Qc) (skipn (S idx) v)); reflexivity. }
  rewrite Hstep. clear Hstep.
  destruct (Qcltb_spec (qsum (firstn (S idx) v)) sp) as [Hlt|Hge].
  - destruct (nth_error v (S idx)) as [x|] eqn:E.
    + rewrite (skipn_cons _ v (S idx) x E). cbn [map nadd]. rewrite <- (firstn_S_sum v (S idx) x E).
      destruct (IH (S idx) sp) as (idx' & H1 & H2 & H3 & H4); [lia| |auto|].
      { apply nth_error_Some. congruence. }
      exists idx'. split; [exact H1|]. split; [lia|]. split; [right|auto]. destruct H3 as [->|H3]; auto.
    + apply nth_error_None in E. exfalso. rewrite firstn_all2 in Hlt by lia. now apply Qclt_not_le in Hlt.
  - exists idx. split; [reflexivity|]. split; [lia|]. split; [now left|]. now apply Qcnot_lt_le.
Qed.

Lemma sample_ok : forall v iv k idx sp, (forall x, In x v -> 0 <= x) -> 0 <= iv -> (idx < length v)%nat ->
  (idx = 0%nat \/ qsum (firstn idx v) < sp) ->
  (forall j, (j < k)%nat -> sp + QcN j * iv <= qsum v) ->
  exists sel, sample_loop k (Some sp) (Some iv) idx (Some (qsum (firstn (S idx) v))) (map (@Some Qc) (skipn (S idx) v)) = Val sel /\
  Forall2 (fun j i => falls_on v (sp + QcN j * iv) i) (seq 0 k) sel /\
  (forall i, In i sel -> (idx <= i)%nat) /\ StronglySorted le sel.
Proof.
  intros v iv. induction k as [|k IH]; intros idx sp Hn Hiv Hidx Hlo Hup.
  { exists []. repeat split; try constructor. intros i []. }
  cbn [sample_loop].
  assert (Hsp : sp <= qsum v). { specialize (Hup 0%nat ltac:(lia)). rewrite QcN_0 in Hup. qclra. }
  destruct (advance_ok v _ idx sp eq_refl Hidx Hsp) as (idx' & -> & Hb & Hl & Hu). cbn [obind nadd].
  assert (Hlo' : idx' = 0%nat \/ qsum (firstn idx' v) < sp).
  { destruct Hl as [->|Hl]; auto. }
  destruct (IH idx' (sp + iv)) as (sel & -> & Hf & Hge & Hso); auto.
  { lia. }
  { destruct Hlo' as [H|H]; [now left|right]. qclra. }
  { intros j Hj. specialize (Hup (S j) ltac:(lia)). rewrite QcN_S in Hup. qclra. }
  cbn [obind]. exists (idx' :: sel). split; [reflexivity|]. split; [|split].
  - constructor.
    + split; [lia|]. rewrite QcN_0. replace (sp + 0 * iv) with sp by ring. auto.
    + rewrite <- seq_shift. clear -Hf. revert Hf. generalize (seq 0 k). intros l.
      revert sel. induction l as [|a l IHl]; intros sel H; inversion H; subst; constructor; auto.
      rewrite QcN_S. replace (sp + (QcN a + 1) * iv) with (sp + iv + QcN a * iv) by ring. auto.
  - intros i [<-|Hi]; [lia|]. specialize (Hge i Hi). lia.
  - constructor; auto. apply Forall_forall. auto.
Qed.

Lemma falls_on_scale : forall w c x i, 0 < c -> falls_on (map (fun y => y / c) w) x i -> falls_on w (x * c) i.
Proof.
  intros w c x i Hc (H1 & H2 & H3). rewrite map_length in H1. split; [auto|].
  rewrite <- map_firstn, qsum_scale in H2. rewrite <- map_firstn, qsum_scale in H3. split.
  - destruct H2 as [H2|H2]; [now left|right]. now apply Qcdiv_lt in H2.
  - now apply Qcle_div in H3.
Qed.

Lemma draw_ok : forall w n u, (forall x, In x w -> 0 <= x) -> 0 < qsum w -> 0 <= u < 1 -> (0 < n)%nat ->
  exists sel, draw (map (@Some Qc) (map (fun x => x / qsum w) w)) n u = Val sel /\
  selection w n u sel /\ StronglySorted le sel.
Proof.
  intros w n u Hn Hs [Hu0 Hu1] Hn0.
  assert (Hnp : 0 < QcN n). { rewrite <- QcN_0. now apply QcN_lt. }
  set (v := map (fun x => x / qsum w) w).
  assert (Hv : forall x, In x v -> 0 <= x).
  { intros x Hx. apply in_map_iff in Hx as (y & <- & Hy). apply Qcle_div; auto. rewrite Qcmult_0_l. auto. }
  assert (Hv1 : qsum v = 1). { unfold v. rewrite qsum_scale. field. now apply Qcpos_neq. }
  destruct v as [|v0 r] eqn:Ev. { simpl in Hv1. exfalso. apply this_eq in Hv1. now vm_compute in Hv1. }
  unfold draw. cbn [map]. simpl ndiv. destruct (Qc_eq_dec (QcN n) 0) as [e|_]; [exfalso; now apply (Qcpos_neq _ Hnp)|].
  cbn [nmul].
  destruct (sample_ok (v0 :: r) (1 / QcN n) n 0 (1 / QcN n * u)) as (sel & Hd & Hf & _ & Hso); auto.
  { apply Qcle_div; auto. rewrite Qcmult_0_l. now vm_compute. }
  { simpl. lia. }
  { intros j Hj. rewrite Hv1. replace (1 / QcN n * u + QcN j * (1 / QcN n)) with ((u + QcN j) / QcN n) by (unfold Qcdiv; ring).
    apply Qcdiv_le; auto. assert (QcN (S j) <= QcN n) by (apply QcN_le; lia). rewrite QcN_S in *. qclra. }
  exists sel. split; [|split; auto].
  - rewrite <- Hd. simpl. f_equal. f_equal. ring.
  - unfold selection. clear Hd Hso. rewrite <- Ev in Hf. revert Hf. generalize (seq 0 n). intros l. revert sel.
    induction l as [|a l IHl]; intros sel H; inversion H; subst; constructor; auto.
    replace ((u + QcN a) / QcN n) with (1 / QcN n * u + QcN a * (1 / QcN n)) by (unfold Qcdiv; ring).
    now apply falls_on_scale.
Qed.

(** ** Counting *)

Definition below (n : nat) (u b : Qc) : nat := length (filter (fun k => Qcleb (u + QcN k) b) (seq 0 n)).

Lemma below_bounds : forall n u b, 0 <= u < 1 -> 0 <= b ->
  QcN (below n u b) - 1 + u <= b /\ (below n u b <= n)%nat /\ (b < QcN (below n u b) + u \/ below n u b = n).
Proof.
  intros n u b [Hu0 Hu1] Hb. induction n as [|n (IH1 & IH2 & IH3)].
  { unfold below. simpl. rewrite QcN_0. split; [qclra|]. split; [lia|now right]. }
  assert (E : below (S n) u b = (below n u b + if Qcleb (u + QcN n) b then 1 else 0)%nat).
  { unfold below. rewrite seq_S, filter_app, app_length. simpl. destruct (Qcleb (u + QcN n) b); reflexivity. }
  rewrite E. destruct (Qcleb_spec (u + QcN n) b) as [H|H].
  - assert (En : below n u b = n).
    { destruct IH3 as [IH3|IH3]; auto. exfalso. apply QcN_le in IH2. qclra. }
    rewrite En. rewrite Nat.add_1_r, QcN_S. split; [qclra|]. split; [lia|now right].
  - rewrite Nat.add_0_r. split; [auto|]. split; [lia|]. left. destruct IH3 as [IH3|IH3]; auto.
    rewrite IH3. apply Qcnot_le_lt in H. qclra.
Qed.

Lemma count_le : forall (f : nat -> bool) w n u sel i, (forall x, In x w -> 0 <= x) -> 0 < qsum w -> (0 < n)%nat ->
  selection w n u sel -> (i < length w)%nat ->
  length (filter (fun x => Nat.leb x i) sel) = below n u (QcN n * qsum (firstn (S i) w) / qsum w).
Proof.
  intros _ w n u sel i Hw Hs Hn Hsel Hi. unfold below, selection in *.
  assert (Hnp : 0 < QcN n). { rewrite <- QcN_0. now apply QcN_lt. }
  revert Hsel. generalize (seq 0 n). intros l. revert sel.
  induction l as [|k l IH]; intros sel H; inversion H as [|k0 s l0 sel' Hk Hf]; subst; [reflexivity|].
  simpl. destruct Hk as (H1 & H2 & H3).
  assert (Hx : ((u + QcN k) / QcN n * qsum w <= qsum (firstn (S i) w)) <->
               (u + QcN k <= QcN n * qsum (firstn (S i) w) / qsum w)).
  { rewrite Qcle_div by auto. rewrite <- (Qcmul_le _ _ (QcN n)) by auto.
    replace ((u + QcN k) / QcN n * qsum w * QcN n) with ((u + QcN k) * qsum w) by (field; now apply Qcpos_neq).
    replace (qsum (firstn (S i) w) * QcN n) with (QcN n * qsum (firstn (S i) w)) by ring. tauto. }
  assert (Hb : Nat.leb s i = Qcleb (u + QcN k) (QcN n * qsum (firstn (S i) w) / qsum w)).
  { destruct (Nat.leb_spec s i) as [Hsi|Hsi]; symmetry.
    - apply Qcleb_true, Hx. eapply Qcle_trans; [exact H3|]. apply qsum_firstn_le; auto. lia.
    - destruct (Qcleb_spec (u + QcN k) (QcN n * qsum (firstn (S i) w) / qsum w)) as [Hc|Hc]; auto.
      exfalso. apply Hx in Hc. destruct H2 as [->|H2]; [lia|].
      assert (qsum (firstn (S i) w) <= qsum (firstn s w)) by (apply qsum_firstn_le; auto). qclra. }
  rewrite Hb. destruct (Qcleb _ _); simpl; now rewrite (IH sel' Hf).
Qed.

Lemma count_split : forall sel i, count_occ Nat.eq_dec sel (S i) =
  (length (filter (fun x => Nat.leb x (S i)) sel) - length (filter (fun x => Nat.leb x i) sel))%nat.
Proof.
  assert (G : forall sel i, length (filter (fun x => Nat.leb x (S i)) sel) =
    (count_occ Nat.eq_dec sel (S i) + length (filter (fun x => Nat.leb x i) sel))%nat).
  { induction sel as [|x sel IH]; intros i; [reflexivity|]. cbn [filter count_occ].
    destruct (Nat.eq_dec x (S i)) as [->|Hn].
    - rewrite Nat.leb_refl. destruct (Nat.leb_spec (S i) i); [lia|]. simpl. now rewrite IH.
    - destruct (Nat.leb_spec x (S i)), (Nat.leb_spec x i); try lia; simpl; rewrite IH; lia. }
  intros. rewrite G. lia.
Qed.

Lemma count_zero : forall sel, count_occ Nat.eq_dec sel 0%nat = length (filter (fun x => Nat.leb x 0%nat) sel).
Proof.
  induction sel as [|x sel IH]; [reflexivity|]. cbn [filter count_occ].
  destruct (Nat.eq_dec x 0) as [->|Hn]; simpl; [now rewrite IH|]. destruct x; [lia|]. simpl. auto.
Qed.

Lemma expected_diff : forall w n i, (i < length w)%nat ->
  expected w n i = QcN n * qsum (firstn (S i) w) / qsum w - QcN n * qsum (firstn i w) / qsum w.
Proof.
  intros w n i Hi. destruct (nth_error w i) as [x|] eqn:E; [|apply nth_error_None in E; lia].
  unfold expected. rewrite (firstn_S_sum w i x E). rewrite (nth_error_nth w i 0 E). unfold Qcdiv. ring.
Qed.

(** Bounds on the number of copies; strict for u > 0. *)
Lemma count_bounds : forall w n u sel i, (forall x, In x w -> 0 <= x) -> 0 < qsum w -> (0 < n)%nat -> 0 <= u < 1 ->
  selection w n u sel -> (i < length w)%nat ->
  let c := QcN (count_occ Nat.eq_dec sel i) in
  expected w n i - 1 <= c <= expected w n i + 1 /\
  (0 < u -> expected w n i - 1 < c < expected w n i + 1).
Proof.
  intros w n u sel i Hw Hs Hn Hu Hsel Hi c. rewrite (expected_diff w n i Hi).
  assert (Hnp : 0 < QcN n). { rewrite <- QcN_0. now apply QcN_lt. }
  assert (Hpos : forall j, 0 <= QcN n * qsum (firstn j w) / qsum w).
  { intros j. apply Qcle_div; auto. rewrite Qcmult_0_l.
    assert (0 <= qsum (firstn j w)). { apply qsum_nonneg. intros x Hx. apply Hw. rewrite <- (firstn_skipn j w). apply in_or_app. now left. }
    clear - H Hnp. qcnra. }
  assert (Htop : forall j, QcN n * qsum (firstn j w) / qsum w <= QcN n).
  { intros j. apply Qcdiv_le; auto.
    assert (qsum (firstn j w) <= qsum w).
    { rewrite <- (firstn_all w) at 2. destruct (le_lt_dec j (length w)).
      - apply qsum_firstn_le; auto.
      - rewrite (firstn_all2 (n := j)) by lia. rewrite firstn_all. apply Qcle_refl. }
    clear - H Hnp. qcnra. }
  assert (Hmono : QcN n * qsum (firstn i w) / qsum w <= QcN n * qsum (firstn (S i) w) / qsum w).
  { assert (H : qsum (firstn i w) <= qsum (firstn (S i) w)) by (apply qsum_firstn_le; auto).
    apply Qcdiv_le; auto. rewrite Qcdiv_mul by now apply Qcpos_neq. clear - H Hnp. qcnra. }
  set (B := QcN n * qsum (firstn (S i) w) / qsum w) in *.
  set (A := QcN n * qsum (firstn i w) / qsum w) in *.
  destruct (below_bounds n u B Hu (Hpos _)) as (HB1 & HB2 & HB3).
  destruct Hu as [Hu0 Hu1].
  assert (HB4 : B <= QcN (below n u B) + u).
  { destruct HB3 as [H|H]; [now apply Qclt_le_weak|]. rewrite H. specialize (Htop (S i)). fold B in Htop. qclra. }
  assert (HB5 : 0 < u -> B < QcN (below n u B) + u).
  { intros Hup. destruct HB3 as [H|H]; auto. rewrite H. specialize (Htop (S i)). fold B in Htop. qclra. }
  destruct i as [|i].
  - assert (HA : A = 0). { unfold A. simpl. unfold Qcdiv. ring. }
    assert (Hc : c = QcN (below n u B)).
    { unfold c. rewrite count_zero. now rewrite (count_le (fun _ => true) w n u sel 0 Hw Hs Hn Hsel Hi). }
    rewrite Hc, HA. split; [split|intros; split]; try (specialize (HB5 H)); qclra.
  - destruct (below_bounds n u A (conj Hu0 Hu1) (Hpos _)) as (HA1 & HA2 & HA3).
    assert (HA4 : A <= QcN (below n u A) + u).
    { destruct HA3 as [H|H]; [now apply Qclt_le_weak|]. rewrite H. specialize (Htop (S i)). fold A in Htop. qclra. }
    assert (HA5 : 0 < u -> A < QcN (below n u A) + u).
    { intros Hup. destruct HA3 as [H|H]; auto. rewrite H. specialize (Htop (S i)). fold A in Htop. qclra. }
    assert (Hc : c = QcN (below n u B) - QcN (below n u A)).
    { unfold c. rewrite count_split.
      rewrite (count_le (fun _ => true) w n u sel (S i) Hw Hs Hn Hsel Hi).
      rewrite (count_le (fun _ => true) w n u sel i Hw Hs Hn Hsel ltac:(lia)). fold A B.
      assert (Hle : (below n u A <= below n u B)%nat).
      { unfold below. clear - Hmono. generalize (seq 0 n). intros l. induction l as [|k l IH]; simpl; [lia|].
        destruct (Qcleb_spec (u + QcN k) A) as [q1|q1], (Qcleb_spec (u + QcN k) B) as [q2|q2]; simpl; try lia.
        exfalso. apply q2. eapply Qcle_trans; eauto. }
      assert (E := QcN_add (below n u B - below n u A) (below n u A)). rewrite Nat.sub_add in E by auto.
      rewrite E. ring. }
    rewrite Hc. split; [split|intros Hup; split]; try (specialize (HA5 Hup)); try (specialize (HB5 Hup)); qclra.
Qed.

Lemma strict_floor_ceil : forall (x : Qc) (c : Z), x - 1 < QcZ c < x + 1 -> (Qfloor (this x) <= c <= Qceiling (this x))%Z.
Proof.
  intros x c [H1 H2]. qc2q. rewrite QcZ_this in *.
  assert (F := Qfloor_le (this x)). assert (G := Qle_ceiling (this x)).
  split.
  - apply Z.lt_succ_r. rewrite (Zlt_Qlt (Qfloor x) (Z.succ c)). unfold Z.succ. rewrite inject_Z_plus. 
    change (inject_Z 1) with 1%Q. lra.
  - apply Z.lt_succ_r. rewrite (Zlt_Qlt c (Z.succ (Qceiling x))). unfold Z.succ. rewrite inject_Z_plus. 
    change (inject_Z 1) with 1%Q. lra.
Qed.
