(** Proofs about the replay of recorded messages. *)
From Coq Require Import ZArith QArith Qcanon List Bool Lia.
From Verif Require Import Base QcLra TimeStampModel TimeStampSpec TimeStampProofs ReplayModel ReplaySpec.
Import ListNotations.
Local Open Scope Z_scope.
Local Open Scope list_scope.

Lemma at_val : forall X (l : list X) i x, at_ l i = Val x <-> 0 <= i /\ nth_error l (Z.to_nat i) = Some x.
Proof.
  intros. unfold at_. split.
  - destruct ((0 <=? i) && (i <? Z.of_nat (List.length l))) eqn:E; [|discriminate].
    apply andb_true_iff in E as [E1 E2]. apply Z.leb_le in E1. intro H. split; [exact E1|].
    destruct (nth_error l (Z.to_nat i)) eqn:N; [|discriminate]. cbn in H. injection H as ->. reflexivity.
  - intros [H1 H2]. assert (Z.to_nat i < List.length l)%nat by (apply nth_error_Some; congruence).
    replace ((0 <=? i) && (i <? Z.of_nat (List.length l))) with true.
    + rewrite H2. reflexivity.
    + symmetry. apply andb_true_iff. split; [apply Z.leb_le; lia | apply Z.ltb_lt; lia].
Qed.

Lemma of_kind_app : forall k a b, of_kind k (a ++ b) = of_kind k a ++ of_kind k b.
Proof. intros. apply filter_app. Qed.

Lemma time_snoc : forall pre m, time_of (pre ++ [m]) = nanos (m_t m).
Proof. intros. unfold time_of. rewrite rev_app_distr. reflexivity. Qed.
Lemma scan_snoc : forall pre m, after_scan (pre ++ [m]) <-> m_kind m = LIDAR.
Proof. intros. unfold after_scan. rewrite rev_app_distr. simpl. tauto. Qed.

Section Replay.
Context {A S : Type}.
Variable clutter : nat -> outcome (list A * nat).
Variables (inputs : list (Qc * Qc)) (scans : list S) (scale : Qc).
Notation step := (step clutter inputs scans scale).
Notation steps := (steps clutter inputs scans scale).
Notation run := (run clutter inputs scans scale).
Notation scaled := (scaled scale).

(** What one call of predict must be after the messages [pre]. *)
Definition right_call (pre : list msg) (m : msg) (c : timestamp * (Qc * Qc) * bool * bool) : Prop :=
  let '(dt, u, noise, birth) := c in
  nanos dt = nanos (m_t m) - time_of pre /\
  (exists u0, in_force inputs pre u0 /\ u = (fst u0, (snd u0 * scale)%Qc)) /\
  (noise = true <-> has_moved inputs pre) /\
  (birth = true <-> after_scan pre).

Definition inv (pre : list msg) (s : @st A) : Prop :=
  normal (s_t s) /\ nanos (s_t s) = time_of pre /\
  (exists u0, in_force inputs pre u0 /\ s_u s = scaled u0) /\
  (s_still s = false <-> has_moved inputs pre) /\
  (s_birth s = true <-> after_scan pre).

Lemma inv_start : forall zs p, inv [] (St ts_zero (0%Qc, 0%Qc) true true zs p).
Proof.
  intros. unfold inv; cbn. split; [split; cbn; lia|]. split; [reflexivity|]. split; [|split].
  - exists (0, 0)%Qc. split; [left; split; reflexivity|]. unfold ReplayModel.scaled; cbn. f_equal. ring.
  - split; [discriminate|]. intros (m & u & [] & _).
  - split; auto.
Qed.

Lemma moved_snoc : forall pre m, has_moved inputs (pre ++ [m]) <->
  has_moved inputs pre \/ (m_kind m = INPUT /\ exists u, nth_error inputs (Z.to_nat (m_idx m)) = Some u /\ fst u <> 0%Qc).
Proof.
  intros. unfold has_moved. split.
  - intros (x & u & Hin & K & N & Z0). apply in_app_iff in Hin as [Hin|[->|[]]]; [left|right]; eauto 10.
  - intros [(x & u & Hin & R)|(K & u & N & Z0)].
    + exists x, u. rewrite in_app_iff. tauto.
    + exists m, u. rewrite in_app_iff. simpl. tauto.
Qed.

Lemma force_snoc : forall pre m u, m_kind m <> INPUT -> in_force inputs pre u -> in_force inputs (pre ++ [m]) u.
Proof.
  intros pre m u K [[H ->]|(a & x & b & -> & Kx & Hb & Hi & N)].
  - left. split; [|reflexivity]. rewrite of_kind_app, H. simpl. destruct (m_kind m =? INPUT) eqn:E; [|reflexivity].
    apply Z.eqb_eq in E. contradiction.
  - right. exists a, x, (b ++ [m]). rewrite <- app_assoc. split; [reflexivity|]. split; [exact Kx|]. split; [|tauto].
    rewrite of_kind_app, Hb. simpl. destruct (m_kind m =? INPUT) eqn:E; [|reflexivity]. apply Z.eqb_eq in E. contradiction.
Qed.

Lemma step_handled : forall pre m s es s', normal (m_t m) -> inv pre s -> for_filter m -> step m s = Val (es, s') ->
  exists c, predicts es = [c] /\ right_call pre m c /\ inv (pre ++ [m]) s'.
Proof.
  intros pre m s es s' Nm (Nt & Et & (u0 & F & Eu) & St1 & Bi) HF H. unfold ReplayModel.step in H.
  destruct (m_kind m =? INPUT) eqn:KI.
  - apply Z.eqb_eq in KI. apply obind_val in H as (dt & Hdt & H). apply obind_val in H as (u & Hu & H).
    injection H as <- <-. apply sub_val in Hdt as [Ndt Edt]; [|assumption..].
    apply at_val in Hu as [Hi Hu].
    exists (dt, s_u s, negb (s_still s), s_birth s). split; [reflexivity|]. split.
    + split; [lia|]. split; [|split].
      * exists u0. split; [exact F|]. rewrite Eu. reflexivity.
      * rewrite <- St1. destruct (s_still s); simpl; intuition congruence.
      * exact Bi.
    + split; [exact Nm|]. split; [rewrite time_snoc; reflexivity|]. split; [|split].
      * exists u. split; [|reflexivity]. right. exists pre, m, []. repeat split; auto.
      * cbn [s_still]. rewrite moved_snoc. unfold ReplayModel.scaled; cbn [fst]. destruct (Qc_eq_dec (fst u) 0) as [E|E].
        -- rewrite <- St1. split; [tauto|]. intros [H|(_ & v & Hv & Hz)]; [exact H|]. rewrite Hu in Hv. injection Hv as <-. contradiction.
        -- split; [|reflexivity]. intros _. right. split; [exact KI|]. exists u. tauto.
      * cbn [s_birth]. rewrite scan_snoc, KI. split; discriminate.
  - destruct (m_kind m =? LIDAR) eqn:KL.
    + apply Z.eqb_eq in KL. apply Z.eqb_neq in KI. apply obind_val in H as (dt & Hdt & H). apply obind_val in H as (c & Hc & H).
      apply obind_val in H as (sc & Hs & H). injection H as <- <-. apply sub_val in Hdt as [Ndt Edt]; [|assumption..].
      exists (dt, s_u s, negb (s_still s), s_birth s). split; [reflexivity|]. split.
      * split; [lia|]. split; [|split].
        -- exists u0. split; [exact F|]. rewrite Eu. reflexivity.
        -- rewrite <- St1. destruct (s_still s); simpl; intuition congruence.
        -- exact Bi.
      * split; [exact Nm|]. split; [rewrite time_snoc; reflexivity|]. split; [|split].
        -- exists u0. split; [|exact Eu]. apply force_snoc; assumption.
        -- cbn [s_still]. rewrite moved_snoc, <- St1. intuition congruence.
        -- cbn [s_birth]. rewrite scan_snoc. tauto.
    + exfalso. apply Z.eqb_neq in KI. apply Z.eqb_neq in KL. destruct HF; contradiction.
Qed.

Lemma step_skip : forall m s es s', (m_kind m =? INPUT) || (m_kind m =? LIDAR) = false -> step m s = Val (es, s') -> es = [] /\ s' = s.
Proof.
  intros m s es s' K H. apply orb_false_iff in K as [K1 K2]. unfold ReplayModel.step in H. rewrite K1, K2 in H. injection H as <- <-. auto.
Qed.

Lemma predicts_app : forall (a b : list (@event A S)), predicts (a ++ b) = predicts a ++ predicts b.
Proof. intros. apply flat_map_app. Qed.
Lemma updates_app : forall (a b : list (@event A S)), updates (a ++ b) = updates a ++ updates b.
Proof. intros. apply flat_map_app. Qed.

Lemma steps_right : forall ms done s es, Forall (fun m => normal (m_t m)) ms -> inv done s -> steps ms s = Val es ->
  List.length (predicts es) = List.length (handled ms) /\
  forall pre m post, handled ms = pre ++ m :: post ->
    exists c, nth_error (predicts es) (List.length pre) = Some c /\ right_call (done ++ pre) m c.
Proof.
  induction ms as [|m ms IH]; intros done s es N I H.
  - injection H as <-. split; [reflexivity|]. intros pre m post E. destruct pre; discriminate.
  - inversion N; subst. cbn [ReplayModel.steps] in H. apply obind_val in H as ([es1 s1] & H1 & H). apply obind_val in H as (es2 & H2' & H).
    injection H as <-. cbn [fst snd] in *. unfold handled in *. cbn [filter].
    destruct ((m_kind m =? INPUT) || (m_kind m =? LIDAR)) eqn:K.
    + assert (HF : for_filter m). { apply orb_true_iff in K. unfold for_filter. destruct K as [K|K]; apply Z.eqb_eq in K; auto. }
      destruct (step_handled _ _ _ _ _ H2 I HF H1) as (c & P & R & I').
      destruct (IH _ _ _ H3 I' H2') as [L Q]. rewrite predicts_app, P. split.
      { simpl. rewrite L. reflexivity. }
      intros pre x post E. destruct pre as [|y pre].
      * injection E as <- <-. exists c. split; [reflexivity|]. rewrite app_nil_r. exact R.
      * injection E as <- E. destruct (Q _ _ _ E) as (c' & N' & R'). exists c'. split; [exact N'|]. rewrite <- app_assoc in R'. exact R'.
    + destruct (step_skip _ _ _ _ K H1) as [-> ->]. exact (IH _ _ _ H3 I H2').
Qed.

Lemma selected_eq : forall n ms, to_process n ms = selected n ms.
Proof.
  intros n ms. unfold to_process, selected. destruct (n <=? 0) eqn:E; [reflexivity|]. destruct (Z.of_nat (List.length ms) <? n) eqn:L; [|reflexivity].
  apply Z.ltb_lt in L. rewrite firstn_all2 by lia. reflexivity.
Qed.

(** Times within the messages processed are the times of the stamps read. *)
Lemma to_process_incl : forall n ms m, In m (to_process n ms) -> In m ms.
Proof.
  intros n ms m. unfold to_process. destruct (n <=? 0); [auto|]. destruct (Z.of_nat (List.length ms) <? n); [auto|].
  intro H. rewrite <- (firstn_skipn (Z.to_nat n) ms). apply in_app_iff. auto.
Qed.

Lemma run_right : forall n ms zs es, Forall (fun m => normal (m_t m)) ms -> run n ms zs = Val es ->
  List.length (predicts es) = List.length (handled (to_process n ms)) /\
  forall pre m post, handled (to_process n ms) = pre ++ m :: post ->
    exists c, nth_error (predicts es) (List.length pre) = Some c /\ right_call pre m c.
Proof.
  intros n ms zs es N H. unfold ReplayModel.run in H. apply (steps_right _ [] _ _) in H; [exact H| |apply inv_start].
  apply Forall_forall. intros m Hm. rewrite Forall_forall in N. apply N. apply (to_process_incl n). exact Hm.
Qed.

Lemma at_in : forall X (l : list X) i, 0 <= i < Z.of_nat (List.length l) -> exists x, at_ l i = Val x.
Proof.
  intros X l i H. destruct (nth_error l (Z.to_nat i)) eqn:E.
  - exists x. apply at_val. split; [lia|exact E].
  - apply nth_error_None in E. lia.
Qed.

Lemma sub_in : forall a b, normal a -> normal b -> 0 <= sec a -> 0 <= sec b -> exists c, ts_sub a b = Val c.
Proof.
  intros a b Na Nb Ha Hb. assert (E : fits32 (sec a - sec b) /\ representable (nanos a - nanos b)).
  { destruct Na, Nb. unfold fits32, representable, nanos, fits32. split; [lia|]. split.
    - apply Z.div_le_lower_bound; lia.
    - apply Z.div_lt_upper_bound; lia. }
  apply sub_exact_iff_l in E; [|assumption..]. destruct E as (c & E & _). eauto.
Qed.

Lemma steps_defined : (forall p, exists c, clutter p = Val c) -> forall ms s, Forall (usable (List.length inputs) (List.length scans)) ms -> normal (s_t s) -> 0 <= sec (s_t s) ->
  exists es, steps ms s = Val es.
Proof.
  intros C. induction ms as [|m ms IH]; intros s U N P; [eexists; reflexivity|].
  inversion U as [|? ? (Nm & Pm & Ui & Ul) U']; subst.
  destruct (sub_in _ _ Nm N Pm P) as (dt & Hdt). cbn [ReplayModel.steps]. unfold ReplayModel.step.
  destruct (m_kind m =? INPUT) eqn:KI.
  - apply Z.eqb_eq in KI. destruct (at_in _ _ _ (Ui KI)) as (u & Hu). rewrite Hdt. cbn [obind]. rewrite Hu. cbn [obind fst snd].
    match goal with |- context [ReplayModel.steps _ _ _ _ ms ?s'] => destruct (IH s' U') as (es & E); [exact Nm|exact Pm|] end.
    rewrite E. eexists. reflexivity.
  - destruct (m_kind m =? LIDAR) eqn:KL.
    + apply Z.eqb_eq in KL. destruct (at_in _ _ _ (Ul KL)) as (sc & Hs). destruct (C (s_p s)) as (c & Hc). rewrite Hdt. cbn [obind]. rewrite Hc. cbn [obind].
      rewrite Hs. cbn [obind fst snd].
      match goal with |- context [ReplayModel.steps _ _ _ _ ms ?s'] => destruct (IH s' U') as (es & E); [exact Nm|exact Pm|] end.
      rewrite E. eexists. reflexivity.
    + cbn [obind fst snd]. destruct (IH s U' N P) as (es & E). rewrite E. eexists. reflexivity.
Qed.

Lemma run_defined : (forall p, exists c, clutter p = Val c) -> forall n ms zs, Forall (usable (List.length inputs) (List.length scans)) ms -> exists es, run n ms zs = Val es.
Proof.
  intros C n ms zs U. apply steps_defined; [exact C| |split; cbn; lia|cbn; lia].
  apply Forall_forall. intros m Hm. rewrite Forall_forall in U. apply U. apply (to_process_incl n). exact Hm.
Qed.

Lemma sum_right : forall hs (cs : list (timestamp * (Qc * Qc) * bool * bool)) done, List.length cs = List.length hs ->
  (forall pre m post, hs = pre ++ m :: post -> exists c, nth_error cs (List.length pre) = Some c /\ right_call (done ++ pre) m c) ->
  time_of done + total cs = time_of (done ++ hs).
Proof.
  induction hs as [|h hs IH]; intros cs done L H.
  - destruct cs; [|discriminate]. rewrite app_nil_r. simpl. lia.
  - destruct cs as [|c cs]; [discriminate|]. destruct (H [] h hs eq_refl) as (c' & E & R). simpl in E. injection E as <-.
    rewrite app_nil_r in R. destruct c as [[[dt u] n] b]. destruct R as (R & _). simpl.
    specialize (IH cs (done ++ [h])). rewrite time_snoc in IH. rewrite <- app_assoc in IH. simpl in IH. rewrite <- IH; [lia| |].
    + simpl in L. lia.
    + intros pre m post ->. destruct (H (h :: pre) m post eq_refl) as (c' & E & R'). exists c'. split; [exact E|]. rewrite <- app_assoc. exact R'.
Qed.

Lemma run_sum : forall n ms zs es, Forall (fun m => normal (m_t m)) ms -> run n ms zs = Val es ->
  total (predicts es) = time_of (handled (to_process n ms)).
Proof.
  intros n ms zs es N H. destruct (run_right _ _ _ _ N H) as [L R].
  pose proof (sum_right (handled (to_process n ms)) (predicts es) [] L R) as E. simpl in E. exact E.
Qed.

(** ** Delivery of measurements *)

Lemma take_same_split : forall t (zs : list (timestamp * A)), zs = map (fun z => (t, z)) (fst (take_same t zs)) ++ snd (take_same t zs).
Proof.
  induction zs as [|[tz z] zs IH]; [reflexivity|]. cbn [take_same]. destruct (ts_eqb tz t) eqn:E; [|reflexivity].
  cbn [fst snd map app]. rewrite <- IH. f_equal. f_equal.
  unfold ts_eqb in E. apply andb_true_iff in E as [E1 E2]. apply Z.eqb_eq in E1. apply Z.eqb_eq in E2. destruct tz, t; cbn in *; congruence.
Qed.

Lemma eqb_ts : forall a b, ts_eqb a b = true <-> a = b.
Proof.
  intros [a1 a2] [b1 b2]. unfold ts_eqb; cbn. rewrite andb_true_iff, !Z.eqb_eq. split; [intros [-> ->]; reflexivity|]. intro E; injection E; auto.
Qed.

Lemma take_same_all : forall t (zs : list (timestamp * A)), normal t -> Forall (fun z => normal (fst z)) zs -> in_order (map fst zs) ->
  (forall z, In z zs -> nanos t <= nanos (fst z)) ->
  fst (take_same t zs) = measured_at t zs /\ snd (take_same t zs) = filter (fun z => negb (ts_eqb (fst z) t)) zs.
Proof.
  intros t zs Nt. induction zs as [|[tz z] zs IH]; intros N O B; [split; reflexivity|].
  inversion N as [|? ? Nz N']; subst. destruct O as [O1 O2]. unfold measured_at in *. cbn [take_same filter fst].
  destruct (ts_eqb tz t) eqn:E.
  - destruct IH as [I1 I2]; [exact N'|exact O2|intros w Hw; apply B; right; exact Hw|]. cbn [fst snd map negb filter]. rewrite I1, I2. auto.
  - assert (L : nanos t < nanos tz).
    { pose proof (B (tz, z) (or_introl eq_refl)) as L. cbn [fst] in L. rewrite eqb_nanos in E by assumption. apply Z.eqb_neq in E. lia. }
    assert (F : forall w, In w zs -> ts_eqb (fst w) t = false).
    { intros w Hw. rewrite Forall_forall in N'. rewrite eqb_nanos; [|apply N'; exact Hw|exact Nt]. apply Z.eqb_neq.
      pose proof (O1 (fst w) (in_map fst _ _ Hw)) as HO. cbn [fst] in HO. lia. }
    cbn [fst snd negb filter]. split.
    + replace (filter (fun z0 => ts_eqb (fst z0) t) zs) with (@nil (timestamp * A)); [reflexivity|]. symmetry.
      clear -F. induction zs as [|w zs IH]; [reflexivity|]. cbn [filter]. rewrite F by (left; reflexivity). apply IH. intros; apply F; right; assumption.
    + f_equal. clear -F. induction zs as [|w zs IH]; [reflexivity|]. cbn [filter]. rewrite F by (left; reflexivity). cbn [negb]. f_equal.
      apply IH. intros; apply F; right; assumption.
Qed.

Lemma in_order_filter : forall f (zs : list (timestamp * A)), in_order (map fst zs) -> in_order (map fst (filter f zs)).
Proof.
  induction zs as [|z zs IH]; [auto|]. intros [O1 O2]. cbn [filter]. destruct (f z); [|auto]. cbn [map in_order]. split; [|auto].
  intros t' Ht. apply O1. apply in_map_iff in Ht as (w & <- & Hw). apply in_map. apply filter_In in Hw. tauto.
Qed.

Lemma step_update : forall m s es s', step m s = Val (es, s') ->
  if m_kind m =? LIDAR
  then exists sc cl, nth_error scans (Z.to_nat (m_idx m)) = Some sc /\ clutter (s_p s) = Val cl /\
       updates es = [(sc, fst (take_same (m_t m) (s_z s)) ++ fst cl)] /\ s_z s' = snd (take_same (m_t m) (s_z s)) /\ s_p s' = snd cl
  else updates es = [] /\ s_z s' = s_z s /\ s_p s' = s_p s.
Proof.
  intros m s es s' H. unfold ReplayModel.step in H. destruct (m_kind m =? INPUT) eqn:KI.
  - apply Z.eqb_eq in KI. rewrite KI. cbn. apply obind_val in H as (dt & Hdt & H). apply obind_val in H as (u & Hu & H). injection H as <- <-. auto.
  - destruct (m_kind m =? LIDAR) eqn:KL.
    + apply obind_val in H as (dt & Hdt & H). apply obind_val in H as (c & Hc & H). apply obind_val in H as (sc & Hs & H). injection H as <- <-.
      apply at_val in Hs as [_ Hs]. exists sc, c. repeat split; auto.
    + injection H as <- <-. auto.
Qed.

Lemma measured_filter : forall t t0 (zs : list (timestamp * A)), t <> t0 ->
  measured_at t (filter (fun z => negb (ts_eqb (fst z) t0)) zs) = measured_at t zs.
Proof.
  intros t t0 zs D. unfold measured_at. induction zs as [|[tz z] zs IH]; [reflexivity|]. cbn [filter fst].
  destruct (ts_eqb tz t0) eqn:E0; cbn [negb].
  - apply eqb_ts in E0 as ->. destruct (ts_eqb t0 t) eqn:E; [apply eqb_ts in E; congruence|]. exact IH.
  - cbn [filter fst]. destruct (ts_eqb tz t); cbn [map]; [f_equal|]; exact IH.
Qed.

Lemma steps_updates : forall ms s es (zs0 : list (timestamp * A)), Forall (fun m => normal (m_t m)) ms -> Forall (fun z => normal (fst z)) (s_z s) ->
  in_order (map fst (s_z s)) -> strictly_ordered (map m_t (of_kind LIDAR ms)) ->
  (forall z, In z (s_z s) -> exists m, In m ms /\ m_kind m = LIDAR /\ m_t m = fst z) ->
  (forall m, In m ms -> m_kind m = LIDAR -> measured_at (m_t m) (s_z s) = measured_at (m_t m) zs0) ->
  steps ms s = Val es -> Forall2 (right_update clutter scans zs0) (of_kind LIDAR ms) (updates es).
Proof.
  induction ms as [|m ms IH]; intros s es zs0 N Nz O SO C M H.
  - injection H as <-. constructor.
  - inversion N as [|? ? Nm N']; subst. cbn [ReplayModel.steps] in H. apply obind_val in H as ([es1 s1] & H1 & H). apply obind_val in H as (es2 & H2 & H).
    injection H as <-. cbn [fst snd] in *. rewrite updates_app. pose proof (step_update _ _ _ _ H1) as U. unfold of_kind in *. cbn [filter] in *.
    destruct (m_kind m =? LIDAR) eqn:K.
    + destruct U as (sc & cl & Hs & Hc & Hu & Hz & Hp). rewrite Hu. cbn [app]. cbn [map strictly_ordered] in SO. destruct SO as [SO1 SO2].
      apply Z.eqb_eq in K.
      assert (T : fst (take_same (m_t m) (s_z s)) = measured_at (m_t m) (s_z s) /\
                  snd (take_same (m_t m) (s_z s)) = filter (fun z => negb (ts_eqb (fst z) (m_t m))) (s_z s)).
      { apply take_same_all; auto. intros z Hz'. destruct (C z Hz') as (x & [<-|Hx] & Kx & Ex); [rewrite Ex; lia|].
        rewrite <- Ex. apply Z.lt_le_incl. apply SO1. apply in_map. apply filter_In. rewrite Kx. auto. }
      destruct T as [T1 T2]. constructor.
      * split; [exact Hs|]. exists (s_p s), (fst cl), (snd cl). split; [rewrite Hc; destruct cl; reflexivity|]. cbn [snd]. rewrite T1.
        rewrite (M m); auto. left; reflexivity.
      * apply (IH s1); auto.
        -- rewrite Hz, T2. apply Forall_forall. intros z Hz'. apply filter_In in Hz' as [Hz' _]. rewrite Forall_forall in Nz. auto.
        -- rewrite Hz, T2. apply in_order_filter. exact O.
        -- rewrite Hz, T2. intros z Hz'. apply filter_In in Hz' as [Hz' Hn]. destruct (C z Hz') as (x & [<-|Hx] & Kx & Ex); [|eauto].
           rewrite <- Ex in Hn. replace (ts_eqb (m_t m) (m_t m)) with true in Hn by (symmetry; apply eqb_ts; reflexivity). discriminate.
        -- intros x Hx Kx. rewrite Hz, T2. rewrite measured_filter; [apply M; auto; right; exact Hx|].
           intro E. assert (L : nanos (m_t m) < nanos (m_t x)). { apply SO1. apply in_map. apply filter_In. rewrite Kx. auto. } rewrite E in L. lia.
    + destruct U as (Hu & Hz & Hp). rewrite Hu. cbn [app]. apply Z.eqb_neq in K. apply (IH s1); auto; rewrite Hz; auto.
      * intros z Hz'. destruct (C z Hz') as (x & [<-|Hx] & Kx & Ex); [contradiction|]. eauto.
      * intros x Hx Kx. apply M; auto. right; exact Hx.
Qed.

Lemma run_updates : forall n ms zs es, Forall (fun m => normal (m_t m)) ms -> Forall (fun z => normal (fst z)) zs ->
  in_order (map fst zs) -> strictly_ordered (map m_t (of_kind LIDAR (to_process n ms))) ->
  (forall z, In z zs -> exists m, In m (to_process n ms) /\ m_kind m = LIDAR /\ m_t m = fst z) ->
  run n ms zs = Val es -> Forall2 (right_update clutter scans zs) (of_kind LIDAR (to_process n ms)) (updates es).
Proof.
  intros n ms zs es N Nz O SO C H. eapply steps_updates; try exact H; cbn [s_z]; auto.
  apply Forall_forall. intros m Hm. rewrite Forall_forall in N. apply N. apply (to_process_incl n). exact Hm.
Qed.

(** A first measurement whose time is that of no scan: no measurement reaches the filter. *)
Lemma steps_starved : forall ms s es t z zs, s_z s = (t, z) :: zs -> (forall m, In m ms -> m_kind m = LIDAR -> m_t m <> t) ->
  steps ms s = Val es -> Forall (fun u => exists p c, clutter p = Val c /\ snd u = fst c) (updates es).
Proof.
  induction ms as [|m ms IH]; intros s es t z zs E D H.
  - injection H as <-. constructor.
  - cbn [ReplayModel.steps] in H. apply obind_val in H as ([es1 s1] & H1 & H). apply obind_val in H as (es2 & H2 & H).
    injection H as <-. cbn [fst snd] in *. rewrite updates_app. pose proof (step_update _ _ _ _ H1) as U.
    destruct (m_kind m =? LIDAR) eqn:K.
    + destruct U as (sc & cl & Hs & Hc & Hu & Hz & Hp). apply Z.eqb_eq in K.
      assert (Q : ts_eqb t (m_t m) = false).
      { destruct (ts_eqb t (m_t m)) eqn:Q; [|reflexivity]. apply eqb_ts in Q. exfalso. apply (D m); [left; reflexivity|exact K|symmetry; exact Q]. }
      rewrite E in Hu, Hz. cbn [take_same fst] in Hu, Hz. rewrite Q in Hu, Hz. cbn [fst snd app] in Hu, Hz.
      rewrite Hu. apply Forall_app. split.
      * constructor; [|constructor]. exists (s_p s), cl. auto.
      * apply (IH s1 es2 t z zs); auto. intros x Hx. apply D. right; exact Hx.
    + destruct U as (Hu & Hz & Hp). rewrite Hu. apply (IH s1 es2 t z zs); auto; [congruence|]. intros x Hx. apply D. right; exact Hx.
Qed.

Lemma run_starved : forall n ms t z zs es, (forall m, In m (to_process n ms) -> m_kind m = LIDAR -> m_t m <> t) ->
  run n ms ((t, z) :: zs) = Val es -> Forall (fun u => exists p c, clutter p = Val c /\ snd u = fst c) (updates es).
Proof. intros n ms t z zs es D H. eapply steps_starved; [|exact D|exact H]. reflexivity. Qed.
End Replay.
