(** Proofs for C153-C156: arrays, dead reckoning, files and landmarks of the drivers. *)
From Coq Require Import Reals ZArith List Bool Arith Lia Lra String.
From Verif Require Import Base ListUtil Loop CeresModel CeresSpec CeresProofs3 DriveModel DriveSpec DriveProofs.
Import ListNotations.

(** ** Parameter arrays *)
Lemma concat_wide : forall (A : Type) P (l : list (list A)), wide P l -> List.length (List.concat l) = (List.length l * P)%nat.
Proof.
  intros A P l H. induction H as [|x l H1 H2 IH]; [reflexivity|]. cbn [List.concat List.length]. rewrite app_length, IH, H1. lia.
Qed.
Lemma param_length : forall (A : Type) P D (t l : list (list A)), wide P t -> wide D l ->
  List.length (param_array t l) = num_params P D (List.length t) (List.length l).
Proof.
  intros A P D t l Ht Hl. unfold param_array, num_params. rewrite app_length, (concat_wide A D l Hl).
  destruct t as [|p t]; [reflexivity|]. cbn [tl List.length]. rewrite (concat_wide A P t).
  - f_equal. f_equal. lia.
  - inversion Ht. assumption.
Qed.
Lemma read_val : forall (A : Type) (a : list A) n, (n <= List.length a)%nat -> read_all a n = Val (firstn n a).
Proof. intros A a n H. unfold read_all. destruct (Nat.leb_spec n (List.length a)); [reflexivity|lia]. Qed.
Lemma read_ub : forall (A : Type) (a : list A) n, (List.length a < n)%nat -> read_all a n = UB OutOfBounds.
Proof. intros A a n H. unfold read_all. destruct (Nat.leb_spec n (List.length a)); [lia|reflexivity]. Qed.
Lemma read_full : forall (A : Type) (a : list A) n, n = List.length a -> read_all a n = Val a.
Proof. intros A a n ->. rewrite read_val by lia. rewrite firstn_all. reflexivity. Qed.

Lemma arrays_1d : forall (A : Type) P D (gt gl t l : list (list A)), wide P gt -> wide P t -> wide D gl -> wide D l ->
  List.length t = List.length gt -> (0 < D)%nat ->
  ((List.length gl <= List.length l)%nat -> run_arrays_1d P D gt gl t l =
     Val (firstn (num_params P D (List.length t) (List.length gl)) (param_array t l), param_array gt gl)) /\
  ((List.length l < List.length gl)%nat -> run_arrays_1d P D gt gl t l = UB OutOfBounds).
Proof.
  intros A P D gt gl t l H1 H2 H3 H4 HL HD. unfold run_arrays_1d. rewrite <- HL.
  assert (Lg : num_params P D (List.length t) (List.length gl) = List.length (param_array gt gl)).
  { rewrite (param_length A P D gt gl H1 H3), HL. reflexivity. }
  rewrite (read_full A _ _ Lg). cbn [obind]. split; intro H.
  - rewrite read_val; [reflexivity|]. rewrite (param_length A P D t l H2 H4). unfold num_params. nia.
  - rewrite read_ub; [reflexivity|]. rewrite (param_length A P D t l H2 H4). unfold num_params. nia.
Qed.
Lemma arrays_2d : forall (A : Type) P D (gt gl t l : list (list A)), wide P gt -> wide P t -> wide D gl -> wide D l ->
  List.length t = List.length gt -> (0 < D)%nat ->
  ((List.length l <= List.length gl)%nat -> run_arrays_2d P D gt gl t l =
     Val (param_array t l, firstn (num_params P D (List.length t) (List.length l)) (param_array gt gl))) /\
  ((List.length gl < List.length l)%nat -> run_arrays_2d P D gt gl t l = UB OutOfBounds).
Proof.
  intros A P D gt gl t l H1 H2 H3 H4 HL HD. unfold run_arrays_2d. rewrite <- HL.
  assert (Lg : num_params P D (List.length t) (List.length gl) = List.length (param_array gt gl)).
  { rewrite (param_length A P D gt gl H1 H3), HL. reflexivity. }
  rewrite (read_full A _ _ Lg). cbn [obind].
  rewrite (read_full A (param_array t l)) by (symmetry; apply param_length; assumption). cbn [obind]. split; intro H.
  - rewrite read_val; [reflexivity|]. rewrite <- Lg. unfold num_params. nia.
  - rewrite read_ub; [reflexivity|]. rewrite <- Lg. unfold num_params. nia.
Qed.

Lemma count_known_le : forall (M : Type) n (l : list (nat * M * Z)), (forall x, In x l -> (snd x < Z.of_nat n)%Z) -> (count_known l <= n)%nat.
Proof.
  intros M n l H. induction l as [|x l IH]; [cbn; lia|]. unfold count_known. cbn [fold_right]. fold (count_known l).
  specialize (IH ltac:(intros y I; apply H; right; exact I)). specialize (H x (or_introl eq_refl)). lia.
Qed.
Lemma in_timed : forall (M : Type) (ss : list (list (M * Z))) k x, In x (timed k ss) -> exists s, In s ss /\ In (snd (fst x), snd x) s.
Proof.
  intros M ss. induction ss as [|s ss IH]; intros k x H; [destruct H|]. cbn [timed] in H. apply in_app_or in H. destruct H as [H|H].
  - apply in_map_iff in H. destruct H as ([z d] & <- & I). exists s. split; [left; reflexivity|exact I].
  - destruct (IH _ _ H) as (s' & I & J). exists s'. split; [right; exact I|exact J].
Qed.
Lemma filter_none : forall (X : Type) (f : X -> bool) l, (forall x, In x l -> f x = false) -> filter f l = [].
Proof.
  intros X f l H. induction l as [|x l IH]; [reflexivity|]. cbn [filter]. rewrite (H x (or_introl eq_refl)). apply IH. intros y I. apply H. right. exact I.
Qed.
(** Without measurements of unknown association the initial map has at most n landmarks. *)
Lemma init_map_small : forall (M L : Type) (inverse : nat -> M -> L) dflt draw n (ss : list (list (M * Z))), assoc_within n ss ->
  (forall s z da, In s ss -> In (z, da) s -> da <> (-1)%Z) -> (List.length (initMap inverse dflt draw ss) <= n)%nat.
Proof.
  intros M L inverse dflt draw n ss Hn Hu. rewrite initMap_exact. rewrite app_length, !map_length, seq_length.
  assert (U : unknown (timed 0 ss) = []).
  { unfold unknown. rewrite filter_none; [reflexivity|]. intros x I. destruct (in_timed _ _ _ _ I) as (s & I1 & I2). apply Z.eqb_neq. exact (Hu s _ _ I1 I2). }
  rewrite U. cbn [selected List.length]. rewrite Nat.add_0_r. apply count_known_le. intros x I. destruct (in_timed _ _ _ _ I) as (s & I1 & I2). exact (Hn s _ _ I1 I2).
Qed.

(** ** Dead reckoning *)
Lemma reckon_line : forall (X U : Type) (step : X -> U -> X) x0 outs, odometry_line step x0 outs = Val (outs, x0 :: path step x0 outs).
Proof.
  intros X U step x0 outs. unfold odometry_line.
  assert (G : forall outs' os xs x k, List.length os = k -> List.length xs = k -> 
    reckon_loop step (fun k => (k - 1)%nat) (S k) outs' (os, xs ++ [x]) = Val (os ++ outs', xs ++ x :: path step x outs')).
  { induction outs' as [|o r IH]; intros os xs x k H1 H2; cbn [reckon_loop path].
    - rewrite app_nil_r. reflexivity.
    - unfold reckon_body. cbn [fst snd]. replace (S k - 1)%nat with k by lia.
      unfold rd. rewrite nth_error_app2 by lia. replace (k - List.length xs)%nat with 0%nat by lia. cbn [nth_error of_option obind].
      rewrite nth_error_app2 by lia. replace (k - List.length os)%nat with 0%nat by lia. cbn [nth_error of_option obind].
      rewrite (IH (os ++ [o]) (xs ++ [x]) (step x o) (S k)).
      + rewrite <- !app_assoc. reflexivity.
      + rewrite app_length. cbn. lia.
      + rewrite app_length. cbn. lia. }
  apply (G outs [] [] x0 0%nat); reflexivity.
Qed.
Lemma reckon_plane : forall (X U : Type) (step : X -> U -> X) x0 o r, odometry_plane step x0 (o :: r) = UB OutOfBounds.
Proof. reflexivity. Qed.
Lemma path_length : forall (X U : Type) (step : X -> U -> X) us x, List.length (path step x us) = List.length us.
Proof. intros X U step us. induction us as [|u us IH]; intro x; [reflexivity|]. cbn [path List.length]. rewrite IH. reflexivity. Qed.

(** ** Files *)
Lemma print_rows_ok : forall (A : Type) f (rows : list (list A)), (forall r, In r rows -> List.length r = conversions f) -> print_rows f rows = Val rows.
Proof.
  intros A f rows H. induction rows as [|r rest IH]; [reflexivity|]. cbn [print_rows]. unfold fprintf.
  rewrite (H r (or_introl eq_refl)), Nat.leb_refl. cbn [obind]. rewrite IH by (intros x I; apply H; right; exact I). cbn [obind].
  rewrite <- (H r (or_introl eq_refl)), firstn_all. reflexivity.
Qed.
Lemma print_two : forall f (l : list (R * R)), conversions f = 2%nat -> print_rows f (map two l) = Val (map two l).
Proof. intros f l H. apply print_rows_ok. intros r I. apply in_map_iff in I. destruct I as (x & <- & _). rewrite H. reflexivity. Qed.
Lemma export_orb_ok : forall d, export_orb d = Val [map two (d_pose d); map two (d_lmk d); map two (d_odo d); map two (d_meas d); map two (d_dr d)].
Proof. intro d. unfold export_orb. rewrite !print_two by reflexivity. reflexivity. Qed.
Lemma export_1d_ok : forall d, (d_lmk d = [] -> export_1d d = Val [map two (d_pose d); []; map two (d_odo d); map two (d_meas d); map two (d_dr d)]) /\
  (d_lmk d <> [] -> export_1d d = UB Uninit).
Proof.
  intro d. unfold export_1d. rewrite !(print_two "%f   %f"%string) by reflexivity. split; intro H.
  - rewrite H. cbn [obind map print_rows]. reflexivity.
  - destruct (d_lmk d) as [|x l]; [congruence|]. reflexivity.
Qed.

(** ** Landmarks of the line *)
Local Open Scope Z_scope.
Lemma count_up_length : forall n a, List.length (count_up a n) = n.
Proof. induction n; intro a; [reflexivity|]. cbn. rewrite IHn. reflexivity. Qed.
Lemma nth_count_up : forall n a i s, nth_error (count_up a n) i = Some s -> s = a + Z.of_nat i.
Proof.
  induction n as [|n IH]; intros a i s H; [destruct i; discriminate|]. destruct i as [|i]; cbn [count_up nth_error] in H.
  - injection H as <-. lia.
  - apply IH in H. lia.
Qed.
Lemma make_spread : forall thr due, (forall c k, due c k = Val (thr c <=? k)) -> (forall c, 0 <= c -> thr c < thr (c + 1)) ->
  forall len k c m, 0 <= c -> k <= thr c -> (m = 0%nat \/ thr (c + Z.of_nat m - 1) < k + Z.of_nat len) -> k + Z.of_nat len <= thr (c + Z.of_nat m) ->
  make_steps due len k c = Val (map thr (count_up c m)).
Proof.
  intros thr due Hd Hinc. assert (Mon : forall c j, 0 <= c -> thr c <= thr (c + Z.of_nat j)).
  { intros c j Hc. induction j as [|j IH]; [rewrite Z.add_0_r; lia|]. specialize (Hinc (c + Z.of_nat j) ltac:(lia)).
    replace (c + Z.of_nat (S j)) with (c + Z.of_nat j + 1) by lia. lia. }
  induction len as [|len IH]; intros k c m Hc Hk H1 H2.
  - destruct m as [|m]; [reflexivity|]. destruct H1 as [H1|H1]; [discriminate|]. exfalso.
    specialize (Mon c m Hc). replace (c + Z.of_nat (S m) - 1) with (c + Z.of_nat m) in H1 by lia. lia.
  - cbn [make_steps]. rewrite Hd. cbn [obind]. destruct (Z.leb_spec (thr c) k) as [L|L].
    + destruct m as [|m]; [rewrite Z.add_0_r in H2; lia|].
      rewrite (IH (k + 1) (c + 1) m).
      * cbn [obind count_up map]. do 2 f_equal. lia.
      * lia.
      * specialize (Hinc c Hc). lia.
      * destruct H1 as [H1|H1]; [discriminate|]. destruct m as [|m]; [left; reflexivity|right].
        replace (c + 1 + Z.of_nat (S m) - 1) with (c + Z.of_nat (S (S m)) - 1) by lia. lia.
      * replace (c + 1 + Z.of_nat m) with (c + Z.of_nat (S m)) by lia. lia.
    + rewrite (IH (k + 1) c m); [reflexivity|exact Hc|lia|destruct H1 as [H1|H1]; [left; exact H1|right; lia]|lia].
Qed.
Lemma make_every : forall due, (forall k, 0 <= k -> due k k = Val true) -> forall len k, 0 <= k -> make_steps due len k k = Val (count_up k len).
Proof.
  intros due H. induction len as [|len IH]; intros k Hk; [reflexivity|]. cbn [make_steps]. rewrite H by exact Hk. cbn [obind].
  rewrite IH by lia. reflexivity.
Qed.

Definition up (a n : Z) : Z := - ((- a) / n).
Lemma up_spec : forall a n s, 0 < n -> (up a n <= s <-> a <= n * s).
Proof.
  intros a n s H. unfold up. split; intro G.
  - pose proof (Z.mul_div_le (- a) n H). nia.
  - assert (- s <= (- a) / n); [|lia]. apply Z.div_le_lower_bound; lia.
Qed.
Lemma line_ok : forall kMax n, 0 <= kMax -> 1 <= n -> exists steps, landmarks_line kMax n = Val steps /\
  List.length steps = Z.to_nat (Z.min n kMax) /\
  forall c s, nth_error steps c = Some s -> if n <=? kMax then n * (s - 1) < kMax * Z.of_nat c <= n * s else s = Z.of_nat c.
Proof.
  intros kMax n Hk Hn. unfold landmarks_line. destruct (Z.ltb_spec n 0); [lia|].
  destruct (Z.leb_spec n kMax) as [L|L].
  - exists (map (fun c => up (kMax * c) n) (count_up 0 (Z.to_nat n))). split; [|split].
    + apply make_spread with (thr := fun c => up (kMax * c) n).
      * intros c k. unfold due_line. destruct (Z.eqb_spec n 0); [lia|]. f_equal.
        pose proof (up_spec (kMax * c) n k ltac:(lia)) as E. destruct (Z.leb_spec (up (kMax * c) n) k) as [G|G], (Z.leb_spec (kMax * c) (k * n)) as [G'|G']; try reflexivity; exfalso.
        -- apply E in G. lia.
        -- assert (kMax * c <= n * k) by lia. apply E in H0. lia.
      * intros c Hc. assert (~ up (kMax * (c + 1)) n <= up (kMax * c) n); [|lia]. rewrite up_spec by lia.
        assert (~ up (kMax * c) n <= up (kMax * c) n - 1) as A by lia. rewrite up_spec in A by lia. nia.
      * lia.
      * rewrite Z.mul_0_r. unfold up. rewrite Z.div_0_l by lia. lia.
      * right. rewrite !Z2Nat.id by lia. assert (up (kMax * (0 + n - 1)) n <= kMax - 1); [|lia]. apply up_spec; nia.
      * rewrite !Z2Nat.id by lia. rewrite !Z.add_0_l. assert (~ up (kMax * n) n <= kMax - 1); [|lia]. rewrite up_spec by lia. nia.
    + rewrite map_length, count_up_length. f_equal. lia.
    + intros c s H1. rewrite nth_error_map in H1. destruct (nth_error (count_up 0 (Z.to_nat n)) c) as [c'|] eqn:E; [|discriminate].
      apply nth_count_up in E. cbn in H1. injection H1 as <-. rewrite E, Z.add_0_l. split.
      * apply Z.nle_gt. rewrite <- up_spec by lia. lia.
      * apply up_spec; lia.
  - exists (count_up 0 (Z.to_nat kMax)). split; [|split].
    + apply make_every; [|lia]. intros k Hk0. unfold due_line. destruct (Z.eqb_spec n 0); [lia|]. f_equal. apply Z.leb_le. nia.
    + rewrite count_up_length. f_equal. lia.
    + intros c s H1. apply nth_count_up in H1. lia.
Qed.
Lemma orb_ok : forall kMax n, 0 <= kMax -> 1 <= n -> exists steps, landmarks_orb kMax n = Val steps /\
  List.length steps = Z.to_nat (Z.min n kMax) /\
  forall c s, nth_error steps c = Some s -> if n <=? kMax then n * s <= kMax * Z.of_nat c < n * (s + 1) else s = Z.of_nat c.
Proof.
  intros kMax n Hk Hn. unfold landmarks_orb. destruct (Z.ltb_spec n 0); [lia|].
  destruct (Z.leb_spec n kMax) as [L|L].
  - exists (map (fun c => Z.quot (kMax * c) n) (count_up 0 (Z.to_nat n))). 
    assert (Q : forall c, 0 <= c -> n * Z.quot (kMax * c) n <= kMax * c < n * (Z.quot (kMax * c) n + 1)).
    { intros c Hc. rewrite Z.quot_div_nonneg by nia. pose proof (Z.mul_div_le (kMax * c) n ltac:(lia)).
      pose proof (Z.mul_succ_div_gt (kMax * c) n ltac:(lia)). lia. }
    split; [|split].
    + apply make_spread with (thr := fun c => Z.quot (kMax * c) n).
      * intros c k. unfold due_orb. destruct (Z.eqb_spec n 0); [lia|]. reflexivity.
      * intros c Hc. pose proof (Q c Hc). pose proof (Q (c + 1) ltac:(lia)). nia.
      * lia.
      * rewrite Z.mul_0_r, Z.quot_0_l by lia. lia.
      * right. rewrite !Z2Nat.id by lia. pose proof (Q (0 + n - 1) ltac:(lia)). nia.
      * rewrite !Z2Nat.id by lia. rewrite !Z.add_0_l. rewrite Z.quot_mul by lia. lia.
    + rewrite map_length, count_up_length. f_equal. lia.
    + intros c s H1. rewrite nth_error_map in H1. destruct (nth_error (count_up 0 (Z.to_nat n)) c) as [c'|] eqn:E; [|discriminate].
      apply nth_count_up in E. cbn in H1. injection H1 as <-. rewrite E, Z.add_0_l. apply Q. lia.
  - exists (count_up 0 (Z.to_nat kMax)). split; [|split].
    + apply make_every; [|lia]. intros k Hk0. unfold due_orb. destruct (Z.eqb_spec n 0); [lia|]. f_equal. apply Z.leb_le.
      rewrite Z.quot_div_nonneg by nia. apply Z.div_le_upper_bound; nia.
    + rewrite count_up_length. f_equal. lia.
    + intros c s H1. apply nth_count_up in H1. lia.
Qed.
Lemma line_none : forall kMax, landmarks_line kMax 0 = Val [].
Proof.
  intro kMax. unfold landmarks_line. cbn [Z.ltb Z.compare]. generalize 0 at 2 3. intro k. generalize k at 2. revert k.
  induction (Z.to_nat kMax) as [|l IH]; intros k c; [reflexivity|]. cbn [make_steps]. unfold due_line at 1. cbn [Z.eqb obind]. rewrite IH. reflexivity.
Qed.
Lemma orb_none : forall kMax, 0 < kMax -> landmarks_orb kMax 0 = UB DivByZero.
Proof. intros kMax H. unfold landmarks_orb. cbn [Z.ltb Z.compare]. destruct (Z.to_nat kMax) eqn:E; [lia|]. reflexivity. Qed.
