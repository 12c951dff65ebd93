(** Proofs about dead reckoning, the readers, artificial clutter, trajectories and configuration. *)
From Coq Require Import ZArith QArith Qcanon Reals Lra List Bool Lia Ascii String.
From Verif Require Import Base QcLra TimeStampModel TimeStampSpec TimeStampProofs SimModel ReplayModel ReplaySpec ReplayProofs.
Import ListNotations.
Local Open Scope Z_scope.
Local Open Scope list_scope.

(** ** Dead reckoning *)
Section Reckoning.
Context {P : Type}.
Variable move : P -> Qc * Qc -> timestamp -> P.
Variables (inputs : list (Qc * Qc)) (scale : Qc).

Lemma reckoning_right : forall ms done x t_km u rows, Forall (fun m => normal (m_t m)) ms -> normal t_km -> in_force inputs done u ->
  reckoning move inputs scale ms x t_km u = Val rows ->
  map fst rows = map m_t (of_kind INPUT ms) /\
  forall pre m post, of_kind INPUT ms = pre ++ m :: post ->
    exists dt u0 y, nth_error (map snd rows) (List.length pre) = Some y /\
      in_force inputs (done ++ pre) u0 /\
      nanos dt = nanos (m_t m) - (match rev pre with [] => nanos t_km | m' :: _ => nanos (m_t m') end) /\
      y = move (match List.length pre with O => x | S j => nth j (map snd rows) x end) (fst u0, (snd u0 * scale)%Qc) dt.
Proof.
  induction ms as [|m ms IH]; intros done x t_km u rows N Nt F H.
  - injection H as <-. split; [reflexivity|]. intros pre m post E. destruct pre; discriminate.
  - inversion N as [|? ? Nm N']; subst. cbn [reckoning] in H. unfold of_kind in *. cbn [filter]. destruct (m_kind m =? INPUT) eqn:K.
    + apply Z.eqb_eq in K. apply obind_val in H as (dt & Hdt & H). apply obind_val in H as (v & Hv & H). apply obind_val in H as (rows' & Hr & H).
      injection H as <-. apply sub_val in Hdt as [_ Hdt]; [|assumption..]. apply at_val in Hv as [Hi Hv].
      assert (F' : in_force inputs (done ++ [m]) v). { right. exists done, m, []. auto. }
      destruct (IH _ _ _ _ _ N' Nm F' Hr) as [I1 I2]. split; [cbn [map fst]; rewrite I1; reflexivity|].
      intros pre m' post E. destruct pre as [|y pre].
      * injection E as <- <-. exists dt, u. eexists. cbn. split; [reflexivity|]. rewrite app_nil_r. auto.
      * injection E as <- E. destruct (I2 _ _ _ E) as (dt' & u0 & y & Y1 & Y2 & Y3 & Y4). exists dt', u0, y.
        cbn [List.length nth_error map]. split; [exact Y1|]. rewrite <- app_assoc in Y2. split; [exact Y2|]. split.
        -- rewrite Y3. cbn [rev]. destruct (rev pre) eqn:R; reflexivity.
        -- rewrite Y4. destruct (List.length pre) as [|j] eqn:L; [reflexivity|]. cbn [snd]. f_equal.
           assert (j < List.length (map snd rows'))%nat.
           { apply (f_equal (@List.length _)) in I1. rewrite !map_length in I1. rewrite map_length, I1.
             apply (f_equal (@List.length _)) in E. rewrite app_length in E. simpl in E. rewrite E. lia. }
           cbn [nth]. apply nth_indep. assumption.
    + apply Z.eqb_neq in K. destruct (IH done _ _ _ _ N' Nt F H) as [I1 I2]. auto.
Qed.
End Reckoning.

(** ** Scans *)

Lemma scan_firstn : forall (s rest : list Q), List.length s = BEAMS -> firstn BEAMS (s ++ rest) = s /\ skipn BEAMS (s ++ rest) = rest.
Proof.
  intros s rest L. split.
  - rewrite firstn_app, L, Nat.sub_diag. cbn [firstn]. rewrite app_nil_r. rewrite <- L. apply firstn_all.
  - rewrite skipn_app, L, Nat.sub_diag. cbn [skipn]. rewrite <- L, skipn_all. reflexivity.
Qed.

Lemma read_prefix : forall rs tss fuel old rest, Forall2 good_scan rs tss -> List.length old = BEAMS ->
  read_scans (List.length rs + fuel) old (lidar_file rs ++ rest) =
  omap (app (combine tss (map snd rs))) (read_scans fuel (last (map snd rs) old) rest).
Proof.
  intros rs tss fuel old rest F. revert old. induction F as [|[t s] ts rs tss (G1 & G2 & G3) F IH]; intros old L; [|change 361%nat with BEAMS in G3].
  - cbn. destruct (read_scans fuel old rest); reflexivity.
  - cbn [fst snd] in *. change (lidar_file ((t, s) :: rs)) with ((t :: s) ++ lidar_file rs). rewrite <- app_assoc. cbn [app List.length Nat.add].
    cbn [read_scans]. apply Qle_bool_iff in G1. rewrite G1, G2. cbn [obind].
    destruct (scan_firstn s (lidar_file rs ++ rest) G3) as [E1 E2]. rewrite E1, E2, G3.
    rewrite skipn_all2 by (rewrite L; lia). rewrite app_nil_r. rewrite IH by exact G3. cbn [map snd combine].
    replace (last (s :: map snd rs) old) with (last (map snd rs) s).
    + destruct (read_scans fuel (last (map snd rs) s) rest); reflexivity.
    + destruct (map snd rs) as [|a l]; [reflexivity|]. clear. revert a. induction l as [|b l IH]; intro a; [reflexivity|]. cbn [last] in *. apply IH.
Qed.

Lemma fuel_enough : forall fuel old file, (List.length file <= fuel)%nat -> read_scans fuel old file <> OutOfFuel.
Proof.
  induction fuel as [|f IH]; intros old file L.
  - destruct file; [discriminate|simpl in L; lia].
  - destruct file as [|t rest]; [discriminate|]. cbn [read_scans]. destruct (Qle_bool 0 t); [|discriminate].
    destruct (setTime t) eqn:E; try discriminate.
    + cbn [obind]. match goal with |- omap _ ?r <> _ => assert (r <> OutOfFuel) end.
      { apply IH. rewrite skipn_length. simpl in L. lia. }
      destruct (read_scans f _ _); discriminate || congruence.
    + exfalso. unfold setTime in E. unfold int32 in E. destruct (in32 (Qtrunc t)); [|discriminate]. cbn [obind] in E.
      destruct (in32 _); [|discriminate]. cbn [obind] in E. unfold normalize in E. cbn [obind] in E.
      destruct (_ <? 0); [|discriminate]. unfold int32 in E. destruct (in32 _); discriminate.
Qed.

Lemma fuel_more : forall fuel k old file, read_scans fuel old file <> OutOfFuel -> read_scans (fuel + k) old file = read_scans fuel old file.
Proof.
  induction fuel as [|f IH]; intros k old file H.
  - destruct file as [|t rest]; [destruct k; reflexivity|]. cbn [read_scans] in *. destruct (Qle_bool 0 t) eqn:E; [congruence|].
    destruct k; cbn [Nat.add read_scans]; rewrite E; reflexivity.
  - destruct file as [|t rest]; [reflexivity|]. cbn [Nat.add read_scans] in *. destruct (Qle_bool 0 t); [|reflexivity].
    destruct (setTime t); try reflexivity. cbn [obind] in *. rewrite IH; [reflexivity|]. intro E. rewrite E in H. apply H. reflexivity.
Qed.

Lemma read_file : forall rs tss rest, Forall2 good_scan rs tss ->
  read_lidar (lidar_file rs ++ rest) =
  omap (app (combine tss (map snd rs))) (read_scans (List.length rest) (last (map snd rs) (repeat 0%Q BEAMS)) rest).
Proof.
  intros rs tss rest F. unfold read_lidar. rewrite <- (read_prefix rs tss (List.length rest) _ rest F) by (apply repeat_length).
  assert (L : (List.length rs + List.length rest <= List.length (lidar_file rs ++ rest))%nat).
  { rewrite app_length. apply Nat.add_le_mono_r. clear. induction rs as [|r rs IH]; [simpl; lia|].
    change (lidar_file (r :: rs)) with ((fst r :: snd r) ++ lidar_file rs). rewrite app_length. simpl. lia. }
  replace (List.length (lidar_file rs ++ rest)) with
    ((List.length rs + List.length rest) + (List.length (lidar_file rs ++ rest) - (List.length rs + List.length rest)))%nat at 1 by lia.
  apply fuel_more. rewrite (read_prefix rs tss _ _ _ F) by apply repeat_length. intro E.
  pose proof (fuel_enough (List.length rest) (last (map snd rs) (repeat 0%Q BEAMS)) rest (le_n _)) as Q.
  destruct (read_scans (List.length rest) _ rest); try discriminate. congruence.
Qed.

Lemma read_complete : forall rs tss, Forall2 good_scan rs tss -> read_lidar (lidar_file rs) = Val (combine tss (map snd rs)).
Proof. intros rs tss F. rewrite <- (app_nil_r (lidar_file rs)), (read_file _ _ _ F). cbn. rewrite app_nil_r. reflexivity. Qed.

(** A last scan that breaks off after k numbers is completed with the end of the one before. *)
Lemma read_broken : forall rs tss t ts part, Forall2 good_scan rs tss -> (0 <= t)%Q -> setTime t = Val ts -> (List.length part < BEAMS)%nat ->
  read_lidar (lidar_file rs ++ t :: part) =
  Val (combine tss (map snd rs) ++ [(ts, part ++ skipn (List.length part) (last (map snd rs) (repeat 0%Q BEAMS)))]).
Proof.
  intros rs tss t ts part F P T L. rewrite (read_file _ _ _ F). cbn [List.length read_scans]. apply Qle_bool_iff in P. rewrite P, T. cbn [obind].
  rewrite firstn_all2 by lia. rewrite skipn_all2 with (n := BEAMS) by lia. destruct (List.length part); reflexivity.
Qed.

Lemma read_negative : forall rs tss t rest, Forall2 good_scan rs tss -> (t < 0)%Q ->
  read_lidar (lidar_file rs ++ t :: rest) = Val (combine tss (map snd rs)).
Proof.
  intros rs tss t rest F N. rewrite (read_file _ _ _ F). cbn [List.length read_scans].
  replace (Qle_bool 0 t) with false.
  - cbn. rewrite app_nil_r. reflexivity.
  - symmetry. destruct (Qle_bool 0 t) eqn:E; [|reflexivity]. apply Qle_bool_iff in E. exfalso. apply (Qlt_not_le _ _ N E).
Qed.

(** ** Trajectories *)
Section Trajectories.
Context {P : Type}.

Lemma run_snoc : forall keep ops o (ps : list (traj P)), pf_run keep (ops ++ [o]) ps =
  match pf_run keep ops ps with Some l => pf_run keep [o] l | None => None end.
Proof.
  induction ops as [|a ops IH]; intros o ps; [reflexivity|]. cbn [app pf_run]. destruct a as [f|sel]; [apply IH|].
  destruct (copied sel ps); [apply IH|reflexivity].
Qed.

Lemma moved_nth : forall keep f (ps : list (traj P)) i p, nth_error (moved_on keep f ps) i = Some p ->
  exists q, nth_error ps i = Some q /\ p = Traj (f i (t_pose q)) (if keep then t_pose q :: t_prev q else t_prev q).
Proof.
  intros keep f ps. unfold moved_on.
  assert (G : forall k i p, nth_error (map (fun ip : nat * traj P => let p := snd ip in Traj (f (fst ip) (t_pose p)) (if keep then t_pose p :: t_prev p else t_prev p))
                 (combine (seq k (List.length ps)) ps)) i = Some p ->
             exists q, nth_error ps i = Some q /\ p = Traj (f (k + i)%nat (t_pose q)) (if keep then t_pose q :: t_prev q else t_prev q)).
  { induction ps as [|q ps IH]; intros k i p H; [destruct i; discriminate|]. destruct i as [|i]; cbn in H.
    - injection H as <-. exists q. rewrite Nat.add_0_r. auto.
    - destruct (IH (S k) i p H) as (q' & Q1 & Q2). exists q'. split; [exact Q1|]. rewrite Q2. f_equal. f_equal. lia. }
  intros i p H. apply (G 0%nat i p H).
Qed.

Lemma copied_nth : forall sel (ps l : list (traj P)) i p, copied sel ps = Some l -> nth_error l i = Some p ->
  exists j, nth_error sel i = Some j /\ nth_error ps j = Some p.
Proof.
  induction sel as [|j sel IH]; intros ps l i p C N.
  - injection C as <-. destruct i; discriminate.
  - cbn in C. destruct (nth_error ps j) eqn:E; [|discriminate]. destruct (fold_right _ _ sel) eqn:F; [|discriminate]. injection C as <-.
    destruct i as [|i]; cbn in N.
    + injection N as <-. exists j. auto.
    + destruct (IH ps l0 i p F N) as (k & K1 & K2). exists k. auto.
Qed.

Lemma kept_path : forall (ps0 : list P) ops ps, pf_run true ops (map (fun x => Traj x []) ps0) = Some ps ->
  forall i p, nth_error ps i = Some p -> path ps0 ops i (trajectory_rows p).
Proof.
  intros ps0 ops. induction ops as [|o ops IH] using rev_ind; intros ps H i p N.
  - injection H as <-. rewrite nth_error_map in N. destruct (nth_error ps0 i) as [x|] eqn:E; [|discriminate]. injection N as <-. cbn. constructor. exact E.
  - rewrite run_snoc in H. destruct (pf_run true ops _) as [l|] eqn:R; [|discriminate]. destruct o as [f|sel]; cbn [pf_run] in H.
    + injection H as <-. apply moved_nth in N as (q & Q & ->). specialize (IH _ eq_refl _ _ Q). unfold trajectory_rows in *. cbn [t_pose t_prev rev] in *.
      rewrite <- app_assoc. apply path_move. exact IH.
    + destruct (copied sel l) as [l'|] eqn:C; [|discriminate]. injection H as <-. destruct (copied_nth _ _ _ _ _ C N) as (j & J1 & J2).
      eapply path_copy; [|exact J1]. apply (IH _ eq_refl). exact J2.
Qed.

Lemma path_unique : forall (ps0 : list P) ops i xs, path ps0 ops i xs -> forall ys, path ps0 ops i ys -> xs = ys.
Proof.
  intros ps0 ops i xs H. induction H as [i x E|ops f i xs x H IH|ops sel i j xs H IH S]; intros ys Y.
  - inversion Y as [? y E' |? ? ? ? ? ? Eo|? ? ? ? ? ? ? Eo]; subst; [congruence| |]; destruct ops; discriminate.
  - inversion Y as [|ops' f' i' xs' x' H' Eo|ops' sel' ? ? ? ? ? Eo]; subst.
    + destruct ops; discriminate.
    + apply app_inj_tail in Eo as [-> Eo]. injection Eo as ->. specialize (IH _ H'). apply app_inj_tail in IH as [-> ->]. reflexivity.
    + apply app_inj_tail in Eo as [_ Eo]. discriminate.
  - inversion Y as [|ops' f' i' xs' x' H' Eo|ops' sel' i' j' xs' H' S' Eo]; subst.
    + destruct ops; discriminate.
    + apply app_inj_tail in Eo as [_ Eo]. discriminate.
    + apply app_inj_tail in Eo as [-> Eo]. injection Eo as ->. apply IH. congruence.
Qed.

Lemma path_length : forall (ps0 : list P) ops i xs, path ps0 ops i xs -> List.length xs = S (moves ops).
Proof.
  intros ps0 ops i xs H. unfold moves. induction H as [i x E|ops f i xs x H IH|ops sel i j xs H IH S0]; [reflexivity| |].
  - rewrite filter_app, app_length. rewrite app_length in *. cbn in *. lia.
  - rewrite filter_app, app_length. cbn. lia.
Qed.

Lemma dropped_path : forall (ps0 : list P) ops ps, pf_run false ops (map (fun x => Traj x []) ps0) = Some ps ->
  forall i p, nth_error ps i = Some p -> trajectory_rows p = [t_pose p].
Proof.
  intros ps0 ops. induction ops as [|o ops IH] using rev_ind; intros ps H i p N.
  - injection H as <-. rewrite nth_error_map in N. destruct (nth_error ps0 i) as [x|] eqn:E; [|discriminate]. injection N as <-. reflexivity.
  - rewrite run_snoc in H. destruct (pf_run false ops _) as [l|] eqn:R; [|discriminate]. destruct o as [f|sel]; cbn [pf_run] in H.
    + injection H as <-. apply moved_nth in N as (q & Q & ->). specialize (IH _ eq_refl _ _ Q). unfold trajectory_rows in *. cbn [t_pose t_prev rev] in *.
      destruct (rev (t_prev q)) eqn:E; [reflexivity|]. destruct l0; discriminate.
    + destruct (copied sel l) as [l'|] eqn:C; [|discriminate]. injection H as <-. destruct (copied_nth _ _ _ _ _ C N) as (j & J1 & J2).
      apply (IH _ eq_refl _ _ J2).
Qed.
End Trajectories.

(** ** Configuration *)

Lemma digit_code : forall d, 0 <= d <= 9 -> Z.of_nat (nat_of_ascii (digit d)) = 48 + d.
Proof. intros d H. unfold digit. rewrite nat_ascii_embedding by lia. lia. Qed.

Definition no_digit (s : string) : Prop :=
  match s with EmptyString => True | String c _ => ~ (48 <= Z.of_nat (nat_of_ascii c) <= 57) end.

Lemma digits_text : forall ds s, are_digits ds -> no_digit s -> digits (append (text ds) s) = (ds, s).
Proof.
  induction ds as [|d ds IH]; intros s D N.
  - destruct s as [|c s]; [reflexivity|]. cbn [text append digits]. cbn in N.
    destruct ((48 <=? Z.of_nat (nat_of_ascii c)) && (Z.of_nat (nat_of_ascii c) <=? 57)) eqn:E; [|reflexivity].
    apply andb_true_iff in E as [E1 E2]. apply Z.leb_le in E1. apply Z.leb_le in E2. tauto.
  - cbn [text append digits]. rewrite digit_code by (apply D; left; reflexivity). pose proof (D d (or_introl eq_refl)).
    replace ((48 <=? 48 + d) && (48 + d <=? 57)) with true.
    + rewrite IH; [|intros x Hx; apply D; right; exact Hx|exact N]. cbn [fst snd]. f_equal. f_equal. lia.
    + symmetry. apply andb_true_iff. split; apply Z.leb_le; lia.
Qed.

Lemma number_whole : forall ds, number ds = whole ds.
Proof.
  intro ds. unfold number. enough (G : forall a, fold_left (fun a d => 10 * a + d) ds a = a * 10 ^ Z.of_nat (List.length ds) + whole ds) by (rewrite G; lia).
  induction ds as [|d ds IH]; intro a; [cbn; lia|]. cbn [fold_left whole List.length]. rewrite IH, Nat2Z.inj_succ, Z.pow_succ_r by lia. ring.
Qed.

Lemma append_nil : forall s, append s EmptyString = s.
Proof. induction s as [|c s IH]; [reflexivity|]. cbn. rewrite IH. reflexivity. Qed.

Lemma int_read : forall ds, are_digits ds -> ds <> [] -> whole ds < 2 ^ 31 -> parse_int (decimal_text ds []) = Some (whole ds).
Proof.
  intros ds D N B. unfold decimal_text, parse_int. rewrite (digits_text ds EmptyString D I). cbn [fst snd]. destruct ds as [|d ds]; [congruence|].
  rewrite number_whole. replace (in32 (whole (d :: ds))) with true; [reflexivity|]. symmetry. unfold in32, INT32_MIN, INT32_MAX.
  apply andb_true_iff. split; apply Z.leb_le; [|lia].
  assert (G : forall l, are_digits l -> 0 <= whole l).
  { induction l as [|x l IH]; intro A; [cbn; lia|]. cbn [whole]. pose proof (A x (or_introl eq_refl)). pose proof (IH (fun y Hy => A y (or_intror Hy))).
    pose proof (Z.pow_nonneg 10 (Z.of_nat (List.length l))). nia. }
  pose proof (G _ D). lia.
Qed.

Lemma point_text : forall ds fs, fs <> [] -> decimal_text ds fs = append (text ds) (String "."%char (text fs)).
Proof. intros ds fs N. unfold decimal_text. destruct fs; [congruence|reflexivity]. Qed.

Lemma int_point : forall ds fs, are_digits ds -> fs <> [] -> parse_int (decimal_text ds fs) = None.
Proof.
  intros ds fs D N. rewrite point_text by exact N. unfold parse_int. rewrite digits_text; [|exact D|cbn; lia]. cbn [fst snd]. destruct ds; reflexivity.
Qed.

Lemma double_read : forall ds fs, are_digits ds -> are_digits fs -> ds <> [] ->
  exists q, parse_double (decimal_text ds fs) = Some q /\ (q == decimal_value ds fs)%Q.
Proof.
  intros ds fs D F N. destruct fs as [|f fs].
  - unfold decimal_text, parse_double. rewrite (digits_text ds EmptyString D I). cbn [fst snd]. destruct ds as [|d ds]; [congruence|].
    eexists. split; [reflexivity|]. rewrite number_whole. unfold decimal_value. cbn [whole List.length]. change (10 ^ Z.of_nat 0) with 1. field.
  - rewrite point_text by discriminate. unfold parse_double. rewrite digits_text; [|exact D|cbn; lia]. cbn [fst snd]. destruct ds as [|d ds]; [congruence|].
    rewrite <- (append_nil (text (f :: fs))). rewrite (digits_text (f :: fs) EmptyString F I). cbn [fst snd]. eexists. split; [reflexivity|].
    rewrite !number_whole. unfold decimal_value, pow10. reflexivity.
Qed.

(** ** The resampling threshold *)
Local Open Scope Qc_scope.
Definition total_sq (ws : list Qc) : Qc := fold_right (fun w a => w * w + a) 0 ws.
Definition size (ws : list Qc) : Qc := Q2Qc (inject_Z (Z.of_nat (List.length ws))).

Lemma size_cons : forall w ws, size (w :: ws) = size ws + 1.
Proof.
  intros. unfold size. cbn [List.length]. rewrite Nat2Z.inj_succ. unfold Z.succ. apply Qc_is_canon. rewrite this_plus, !this_Q2Qc, inject_Z_plus. reflexivity.
Qed.

Lemma sq_nonneg : forall a : Qc, 0 <= a * a.
Proof. intro a. qcnra. Qed.

Lemma spread : forall ws w, 0 <= total_sq ws - (1 + 1) * total_w ws * w + size ws * (w * w).
Proof.
  induction ws as [|x ws IH]; intro w.
  - cbn [total_sq total_w fold_right]. replace (size []) with 0 by (apply Qc_is_canon; reflexivity).
    replace (0 - (1 + 1) * 0 * w + 0 * (w * w)) with 0 by ring. apply Qcle_refl.
  - rewrite size_cons. cbn [total_sq total_w fold_right]. specialize (IH w). fold (total_sq ws) (total_w ws) in *.
    replace (x * x + total_sq ws - (1 + 1) * (x + total_w ws) * w + (size ws + 1) * (w * w)) with
      ((total_sq ws - (1 + 1) * total_w ws * w + size ws * (w * w)) + (x - w) * (x - w)) by ring.
    pose proof (sq_nonneg (x - w)) as Q. generalize dependent (total_sq ws - (1 + 1) * total_w ws * w + size ws * (w * w)).
    intros a Ha. generalize dependent ((x - w) * (x - w)). intros b Hb. qclra.
Qed.

Lemma cauchy : forall ws, total_w ws * total_w ws <= size ws * total_sq ws.
Proof.
  induction ws as [|x ws IH].
  - cbn [total_sq total_w fold_right]. replace (size [] * 0) with (0 * 0) by ring. apply Qcle_refl.
  - rewrite size_cons. cbn [total_sq total_w fold_right]. fold (total_sq ws) (total_w ws). pose proof (spread ws x) as Q.
    generalize dependent (total_sq ws). generalize dependent (total_w ws). generalize (size ws). intros n s q H1 H2.
    replace ((n + 1) * (x * x + q)) with ((n * q) + (q - (1 + 1) * s * x + n * (x * x)) + ((x * x) + (1 + 1) * s * x)) by ring.
    replace ((x + s) * (x + s)) with (s * s + (x * x + (1 + 1) * s * x)) by ring.
    generalize dependent (q - (1 + 1) * s * x + n * (x * x)). intros a Ha. generalize dependent (n * q). generalize (s * s). generalize (x * x + (1 + 1) * s * x).
    intros b c d H. qclra.
Qed.

Lemma fold_sq : forall ws a, fold_left (fun a w => a + w * w) ws a = a + total_sq ws.
Proof. induction ws as [|w ws IH]; intro a; cbn [fold_left total_sq fold_right]; [ring|]. rewrite IH. fold (total_sq ws). ring. Qed.

(** A threshold of the number of particles: resampling is never skipped. *)
Lemma never_skipped : forall ws, total_w ws = 1 -> skips (size ws) ws = false.
Proof.
  intros ws T. unfold skips. fold (size ws). apply andb_false_iff. left. apply Qcltb_false. rewrite fold_sq.
  replace (0 + total_sq ws) with (total_sq ws) by ring. pose proof (cauchy ws) as C. rewrite T in C.
  assert (P : 0 < total_sq ws).
  { destruct (Qclt_le_dec 0 (total_sq ws)) as [L|L]; [exact L|]. exfalso.
    assert (N : 0 <= size ws).
    { unfold size. clear. change (0 <= this (Q2Qc (inject_Z (Z.of_nat (List.length ws)))))%Q. rewrite this_Q2Qc. unfold Qle; simpl. lia. }
    generalize dependent (total_sq ws). generalize dependent (size ws). intros n Hn q H1 H2. clear T. qcnra. }
  apply (Qcmult_lt_0_le_reg_r _ _ (total_sq ws)); [exact P|]. unfold Qcdiv. rewrite Qcmult_1_l, (Qcmult_comm (/ total_sq ws)), Qcmult_inv_r.
  - replace (1 * 1) with 1 in C by ring. exact C.
  - intro E. rewrite E in P. discriminate.
Qed.
Local Close Scope Qc_scope.

(** ** Clutter and logged weights *)
Local Open Scope R_scope.

Lemma alarm_range : forall rmin rmax bmin bmax rnd p, (forall i, 0 <= rnd i < 1) -> rmin < rmax ->
  rmin <= fst (fst (alarm rmin rmax bmin bmax rnd p)) < rmax.
Proof. intros rmin rmax bmin bmax rnd p U L. cbn. pose proof (U p). nra. Qed.

Lemma alarm_bearing : forall rmin rmax bmin bmax rnd p, snd (fst (alarm rmin rmax bmin bmax rnd p)) = rnd (S p) * (bmax * PI / 180).
Proof. intros. cbn. field. Qed.

Lemma alarms_in : forall rmin rmax bmin bmax rnd n p z, In z (alarms rmin rmax bmin bmax rnd n p) ->
  exists i, (i < n)%nat /\ z = alarm rmin rmax bmin bmax rnd (p + 2 * i).
Proof.
  induction n as [|n IH]; intros p z H; [destruct H|]. destruct H as [<-|H].
  - exists 0%nat. split; [lia|]. f_equal. lia.
  - destruct (IH _ _ H) as (i & L & ->). exists (S i). split; [lia|]. f_equal. lia.
Qed.

Lemma alarms_length : forall rmin rmax bmin bmax rnd n p, List.length (alarms rmin rmax bmin bmax rnd n p) = n.
Proof. induction n as [|n IH]; intro p; [reflexivity|]. cbn. rewrite IH. reflexivity. Qed.

Lemma logged_in : forall w, 0 < logged_weight w < 1.
Proof.
  intro w. unfold logged_weight. pose proof (exp_pos w). assert (0 < / (1 + exp w)) by (apply Rinv_0_lt_compat; lra).
  assert (/ (1 + exp w) < 1). { rewrite <- Rinv_1. apply Rinv_lt_contravar; lra. }
  unfold Rdiv. lra.
Qed.

Lemma logged_odds : forall w, ln (logged_weight w / (1 - logged_weight w)) = w.
Proof.
  intro w. unfold logged_weight. pose proof (exp_pos w). replace ((1 - 1 / (1 + exp w)) / (1 - (1 - 1 / (1 + exp w)))) with (exp w) by (field; lra).
  apply ln_exp.
Qed.

Lemma logged_prob : forall p, 0 < p < 1 -> logged_weight (ln (p / (1 - p))) = p.
Proof. intros p H. unfold logged_weight. rewrite exp_ln; [field; lra|]. apply Rdiv_lt_0_compat; lra. Qed.
