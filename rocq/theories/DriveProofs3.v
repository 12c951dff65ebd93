(** Proofs for C157 and C158: generated measurements of the line and their delivery to the optimiser. *)
From Coq Require Import Reals ZArith List Bool Arith Lia Lra.
From Verif Require Import Base ListUtil Loop PsoModel PsoProofs5 CeresModel SensorModel SensorProofs DriveModel DriveSpec.
Import ListNotations.
Local Open Scope nat_scope.

Section Gen.
Variable c : scfg.
Variables poses lms : list R.
Variables noise u : nat -> nat -> R.
Variable alarms : nat -> list R.
Variables tag dT : Z.

Definition sees (k m : nat) : option R :=
  match nth_error poses k, nth_error lms m with
  | Some x, Some l =>
    let z := (l - x + noise k m)%R in
    if in_limits c (Rabs (l - x)) && (leb (Rabs z) (s_max c) && leb (s_min c) (Rabs z) && leb (u k m) (s_pd c)) then Some z else None
  | _, _ => None
  end.
Lemma seen_sees : forall k m, k < length poses -> m < length lms -> seen c poses lms noise u k m = Val (sees k m).
Proof.
  intros k m Hk Hm. unfold seen, sees, rd. destruct (nth_error poses k) as [x|] eqn:E; [|apply nth_error_None in E; lia].
  destruct (nth_error lms m) as [l|] eqn:E'; [|apply nth_error_None in E'; lia]. reflexivity.
Qed.
Lemma sees_hits : forall k m x l z, nth_error poses k = Some x -> nth_error lms m = Some l ->
  (sees k m = Some z <-> hits c x l (noise k m) (u k m) z).
Proof.
  intros k m x l z E E'. unfold sees. rewrite E, E'. unfold hits. set (w := (l - x + noise k m)%R).
  destruct (in_limits c (Rabs (l - x))) eqn:A.
  - apply in_limits_iff in A. destruct (leb (Rabs w) (s_max c)) eqn:B1; destruct (leb (s_min c) (Rabs w)) eqn:B2; destruct (leb (u k m) (s_pd c)) eqn:B3; cbn [andb];
      rewrite ?leb_iff in *; split; intro H; try discriminate.
    + injection H as <-. tauto.
    + destruct H as (-> & _). reflexivity.
    + exfalso. destruct H as (-> & _ & _ & H). apply leb_iff in H. congruence.
    + exfalso. destruct H as (-> & _ & (H & _) & _). apply leb_iff in H. fold w in H. congruence.
    + exfalso. destruct H as (-> & _ & (H & _) & _). apply leb_iff in H. fold w in H. congruence.
    + exfalso. destruct H as (-> & _ & (_ & H) & _). apply leb_iff in H. fold w in H. congruence.
    + exfalso. destruct H as (-> & _ & (_ & H) & _). apply leb_iff in H. fold w in H. congruence.
    + exfalso. destruct H as (-> & _ & (_ & H) & _). apply leb_iff in H. fold w in H. congruence.
    + exfalso. destruct H as (-> & _ & (_ & H) & _). apply leb_iff in H. fold w in H. congruence.
  - cbn [andb]. split; intro H; [discriminate|]. exfalso. destruct H as (_ & H & _).
    assert (in_limits c (Rabs (l - x)) = true) by (apply in_limits_iff; tauto). congruence.
Qed.

Definition det (k m : nat) : list (R * Z) := match sees k m with Some z => [(z, Z.of_nat m)] | None => [] end.
Definition scan (k : nat) : list (R * Z) := flat_map (det k) (seq 0 (length lms)) ++ map (fun r => (r, tag)) (alarms k).
Definition row (t : Z) (zd : R * Z) : (Z * R) * Z := ((t, fst zd), snd zd).
Definition rows (k : nat) : list ((Z * R) * Z) := map (row (Z.of_nat k * dT)) (scan k).
Definition all (n : nat) : list ((Z * R) * Z) := concat (map rows (seq 0 n)).

Definition first_ok (k m : nat) (v : Z) : Prop :=
  (v = (-1)%Z /\ forall j, j < k -> sees j m = None) \/
  (exists j, j < k /\ v = (Z.of_nat j * dT)%Z /\ sees j m <> None /\ forall i, i < j -> sees i m = None).

Lemma all_S : forall n, all (S n) = all n ++ rows n.
Proof. intro n. unfold all. rewrite seq_S, map_app, concat_app. cbn [map concat plus]. rewrite app_nil_r. reflexivity. Qed.

Hypothesis dT_pos : (0 <= dT)%Z.

Lemma detect_step : forall k m g (L : list ((Z * R) * Z)), k < length poses -> m < length lms ->
  let t := (Z.of_nat k * dT)%Z in
  g_z g = map fst L -> g_da g = map snd L -> length (g_first g) = length lms ->
  (forall j v, nth_error (g_first g) j = Some v -> if j <? m then first_ok (S k) j v else first_ok k j v) ->
  exists g', detect_body c poses lms noise u t k m g = Val g' /\ g_z g' = map fst (L ++ map (row t) (det k m)) /\
    g_da g' = map snd (L ++ map (row t) (det k m)) /\ length (g_first g') = length lms /\
    (forall j v, nth_error (g_first g') j = Some v -> if j <? S m then first_ok (S k) j v else first_ok k j v).
Proof.
  intros k m g L Hk Hm t Ez Ed El Hf. unfold detect_body. rewrite seen_sees by assumption. cbn [obind]. unfold det.
  destruct (sees k m) as [z|] eqn:Es.
  - assert (Lm : m < length (g_first g)) by lia. unfold rd. destruct (nth_error (g_first g) m) as [f|] eqn:Ef; [|apply nth_error_None in Ef; lia].
    cbn [of_option obind]. eexists. split; [reflexivity|]. cbn [g_z g_da g_first map row fst snd].
    rewrite !map_app, Ez, Ed. split; [reflexivity|]. split; [reflexivity|]. split.
    + destruct (Z.eqb f (-1)); [rewrite upd_length|]; exact El.
    + intros j v. pose proof (Hf m f Ef) as Hm'. rewrite Nat.ltb_irrefl in Hm'.
      assert (Vf : first_ok (S k) m (if Z.eqb f (-1) then t else f)).
      { destruct (Z.eqb_spec f (-1)) as [->|N].
        - right. exists k. split; [lia|]. split; [reflexivity|]. split; [congruence|]. destruct Hm' as [[_ H]|(j' & _ & Hv & _)]; [exact H|]. nia.
        - right. destruct Hm' as [[H _]|(j' & H1 & H2 & H3 & H4)]; [congruence|]. exists j'. split; [lia|]. auto. }
      destruct (Nat.eq_dec j m) as [->|Nj].
      * intro E. assert (Hlt : m <? S m = true) by (apply Nat.ltb_lt; lia). rewrite Hlt.
        replace v with (if Z.eqb f (-1) then t else f); [exact Vf|]. destruct (Z.eqb f (-1)).
        -- rewrite nth_error_upd_eq in E by lia. congruence.
        -- congruence.
      * intro E. assert (E' : nth_error (g_first g) j = Some v).
        { destruct (Z.eqb f (-1)); [|exact E]. rewrite nth_error_upd_neq in E by congruence. exact E. }
        specialize (Hf j v E'). destruct (Nat.ltb_spec j (S m)), (Nat.ltb_spec j m); try lia; exact Hf.
  - exists g. split; [reflexivity|]. cbn [map]. rewrite app_nil_r. split; [exact Ez|]. split; [exact Ed|]. split; [exact El|].
    intros j v E. pose proof (Hf j v E) as H. destruct (Nat.ltb_spec j (S m)), (Nat.ltb_spec j m); try lia; try exact H.
    assert (j = m) by lia. subst j. destruct H as [[G1 G2]|(j' & G1 & G2 & G3 & G4)].
    + left. split; [exact G1|]. intros i Hi. destruct (Nat.eq_dec i k) as [->|]; [exact Es|apply G2; lia].
    + right. exists j'. split; [lia|]. auto.
Qed.

Lemma generate_ok : forall n, n <= length poses -> exists g, generate c poses lms noise u alarms tag dT n = Val g /\
  g_z g = map fst (all n) /\ g_da g = map snd (all n) /\ length (g_first g) = length lms /\
  (forall m v, nth_error (g_first g) m = Some v -> first_ok n m v).
Proof.
  intros n Hn. unfold generate.
  set (I := fun (k : nat) (s : gen * Z) => snd s = (Z.of_nat k * dT)%Z /\ g_z (fst s) = map fst (all k) /\ g_da (fst s) = map snd (all k) /\
    length (g_first (fst s)) = length lms /\ (forall m v, nth_error (g_first (fst s)) m = Some v -> first_ok k m v)).
  destruct (for_inv I (scan_body c poses lms noise u alarms tag dT) n (Gen [] [] (map (fun _ => (-1)%Z) lms), 0%Z)) as (s & E & HI).
  - split; [cbn; lia|]. split; [reflexivity|]. split; [reflexivity|]. split; [cbn; apply map_length|].
    intros m v Hv. cbn [fst g_first] in Hv. left. split; [|lia].
    rewrite nth_error_map in Hv. destruct (nth_error lms m); cbn in Hv; congruence.
  - intros k [g t] Hk (Ht & Hz & Hd & Hl & Hf). cbn [fst snd] in *. subst t.
    unfold scan_body. cbn [fst snd]. unfold rd. destruct (nth_error poses k) as [x|] eqn:Ex; [|apply nth_error_None in Ex; lia]. cbn [of_option obind].
    set (t := (Z.of_nat k * dT)%Z) in *.
    set (J := fun (m : nat) (g : gen) => g_z g = map fst (all k ++ map (row t) (flat_map (det k) (seq 0 m))) /\
      g_da g = map snd (all k ++ map (row t) (flat_map (det k) (seq 0 m))) /\ length (g_first g) = length lms /\
      (forall j v, nth_error (g_first g) j = Some v -> if j <? m then first_ok (S k) j v else first_ok k j v)).
    destruct (for_inv J (detect_body c poses lms noise u t k) (length lms) g) as (g' & E' & HJ).
    + unfold J. cbn [seq flat_map map]. rewrite app_nil_r. split; [exact Hz|]. split; [exact Hd|]. split; [exact Hl|]. intros j v Hv. cbn. apply Hf. exact Hv.
    + intros m h Hm (Jz & Jd & Jl & Jf). destruct (detect_step k m h _ ltac:(lia) Hm Jz Jd Jl Jf) as (h' & Eh & Kz & Kd & Kl & Kf).
      exists h'. split; [exact Eh|]. unfold J. rewrite seq_S, flat_map_app, (map_app (row t)). cbn [flat_map plus]. rewrite app_nil_r.
      rewrite app_assoc. auto.
    + rewrite E'. cbn [obind]. eexists. split; [reflexivity|]. destruct HJ as (Jz & Jd & Jl & Jf). unfold I. cbn [fst snd g_z g_da g_first].
      split; [unfold t; lia|]. rewrite all_S. unfold rows, scan. fold t. rewrite !map_app in *. rewrite !map_map in *. cbn [row fst snd] in *.
      rewrite Jz, Jd, <- !app_assoc. split; [reflexivity|]. split; [reflexivity|]. split; [exact Jl|].
      intros m v Hv. specialize (Jf m v Hv). assert (m < length lms) by (rewrite <- Jl; apply nth_error_Some; congruence).
      destruct (Nat.ltb_spec m (length lms)); [exact Jf|lia].
  - rewrite E. cbn [obind]. eexists. split; [reflexivity|]. destruct HI as (_ & H). exact H.
Qed.
End Gen.

(** ** Delivery *)
Section Deliver.
Context {I : Type}.
Variable itime : I -> Z.
Variable dT : Z.
Hypothesis dT_pos : (0 < dT)%Z.
Notation M := (Z * R)%type.
Notation add := (c_addMeasurement (I := I) (M := M) fst).

Fixpoint add_list (l : list (M * Z)) (b : cbatch (I := I) (M := M)) : outcome (cbatch (I := I) (M := M)) :=
  match l with
  | [] => Val b
  | zd :: r => let* b' := add (fst zd) (snd zd) b in add_list r b'
  end.
Lemma add_list_eq : forall l b, c_addMeasurements fst (map fst l) (map snd l) b = add_list l b.
Proof.
  intros l b. unfold c_addMeasurements, for_. rewrite map_length.
  assert (G : forall suf pre b, l = pre ++ suf -> for_from (fun i b0 =>
    let* z := of_option OutOfBounds (nth_error (map fst l) i) in let* da := of_option OutOfBounds (nth_error (map snd l) i) in add z da b0) (length pre) (length suf) b = add_list suf b).
  { induction suf as [|zd suf IH]; intros pre b0 E; [reflexivity|]. cbn [length for_from add_list].
    rewrite !nth_error_map. assert (N : nth_error l (length pre) = Some zd) by (rewrite E, nth_error_app2, Nat.sub_diag by lia; reflexivity).
    rewrite N. cbn [option_map of_option obind]. destruct (add (fst zd) (snd zd) b0) as [b1| |]; cbn [obind]; try reflexivity.
    specialize (IH (pre ++ [zd]) b1). rewrite app_length in IH. cbn [length] in IH. replace (length pre + 1) with (S (length pre)) in IH by lia.
    apply IH. rewrite <- app_assoc. exact E. }
  exact (G l [] b eq_refl).
Qed.

Definition clock (n : nat) : list Z := map (fun k => (Z.of_nat k * dT)%Z) (seq 0 n).
Lemma nth_clock : forall n k, k < n -> nth_error (clock n) k = Some (Z.of_nat k * dT)%Z.
Proof.
  intros n k H. unfold clock. rewrite nth_error_map.
  assert (E : nth_error (seq 0 n) k = Some k). { rewrite (nth_error_nth' _ 0) by (rewrite seq_length; lia). rewrite seq_nth by lia. reflexivity. }
  rewrite E. reflexivity.
Qed.
Lemma clock_ascending : forall n, PsoSpec.ascending (clock n).
Proof.
  intro n. unfold clock. generalize 0 as a. induction n as [|n IH]; intro a; [exact Logic.I|]. cbn [seq map].
  specialize (IH (S a)). destruct n; [exact Logic.I|]. cbn [seq map] in *. split; [nia|exact IH].
Qed.
Lemma add_at : forall n us zz k z da old, k < n -> fst z = (Z.of_nat k * dT)%Z -> nth_error zz k = Some old ->
  add z da (BT us (clock n) zz) = Val (BT us (clock n) (upd zz k (old ++ [(z, da)]))).
Proof.
  intros n us zz k z da old Hk Hz Ho. unfold c_addMeasurement, addMeasurement. cbn [times zs inputs fst].
  assert (Ln : length (clock n) = n) by (unfold clock; rewrite map_length, seq_length; reflexivity).
  destruct (lower_bound_ok (clock n) (fst z) (S (length (clock n))) 0 (length (clock n)) (clock_ascending n)) as (j & Ej & Hj & H1 & H2);
    [lia|lia|intros; lia|intros i x Hi Hx; assert (i < length (clock n)) by (apply nth_error_Some; congruence); lia|].
  rewrite Ej. cbn [obind]. assert (j = k).
  { destruct (Nat.lt_trichotomy j k) as [H|[H|H]]; [|exact H|].
    - specialize (H2 j _ (le_n j) (nth_clock n j ltac:(lia))). rewrite Hz in H2. nia.
    - specialize (H1 k _ H (nth_clock n k Hk)). rewrite Hz in H1. lia. }
  subst j. rewrite (nth_clock n k Hk), Hz, Z.eqb_refl, Ho. reflexivity.
Qed.
Lemma add_group : forall n us k G zz old, k < n -> (forall zd, In zd G -> fst (fst zd) = (Z.of_nat k * dT)%Z) -> nth_error zz k = Some old ->
  add_list G (BT us (clock n) zz) = Val (BT us (clock n) (upd zz k (old ++ G))).
Proof.
  intros n us k G. induction G as [|[z da] G IH]; intros zz old Hk HG Ho.
  - cbn [add_list]. rewrite app_nil_r. rewrite upd_same by exact Ho. reflexivity.
  - cbn [add_list fst snd]. rewrite (add_at n us zz k z da old Hk (HG _ (or_introl eq_refl)) Ho). cbn [obind].
    rewrite (IH _ (old ++ [(z, da)])); [|exact Hk|intros; apply HG; right; assumption|].
    + rewrite upd_upd, <- app_assoc. reflexivity.
    + apply nth_error_upd_eq. apply nth_error_Some. congruence.
Qed.
Lemma add_list_app : forall a b' s, add_list (a ++ b') s = let* s' := add_list a s in add_list b' s'.
Proof.
  induction a as [|zd a IH]; intros b' s; [reflexivity|]. cbn [app add_list]. destruct (add (fst zd) (snd zd) s); cbn [obind]; [apply IH|reflexivity|reflexivity].
Qed.
Lemma add_groups : forall n us (G : nat -> list (M * Z)), (forall k zd, In zd (G k) -> fst (fst zd) = (Z.of_nat k * dT)%Z) ->
  forall k, k <= n -> add_list (concat (map G (seq 0 k))) (BT us (clock n) (repeat [] n)) = Val (BT us (clock n) (map G (seq 0 k) ++ repeat [] (n - k))).
Proof.
  intros n us G HG. induction k as [|k IH]; intro Hk.
  - cbn. rewrite Nat.sub_0_r. reflexivity.
  - rewrite seq_S, map_app, concat_app. cbn [map concat plus]. rewrite app_nil_r, add_list_app, IH by lia. cbn [obind].
    rewrite (add_group n us k (G k) _ []); [|lia|apply HG|].
    + cbn [app]. do 2 f_equal. replace (n - k) with (S (n - S k)) by lia. cbn [repeat].
      rewrite upd_app2 by (rewrite map_length, seq_length; lia). rewrite map_length, seq_length, Nat.sub_diag. cbn [upd]. rewrite <- app_assoc. reflexivity.
    + rewrite nth_error_app2 by (rewrite map_length, seq_length; lia). rewrite map_length, seq_length, Nat.sub_diag.
      replace (n - k) with (S (n - S k)) by lia. reflexivity.
Qed.
Lemma deliver_ok : forall (us : list I) (G : nat -> list (M * Z)) n, length us = n -> (forall k o, nth_error us k = Some o -> itime o = (Z.of_nat (S k) * dT)%Z) ->
  (forall k zd, In zd (G k) -> fst (fst zd) = (Z.of_nat k * dT)%Z) ->
  c_addMeasurements fst (map fst (concat (map G (seq 0 (S n))))) (map snd (concat (map G (seq 0 (S n))))) (c_setInputs itime us (BT [] [] [])) =
  Val (BT us (clock (S n)) (map G (seq 0 (S n)))).
Proof.
  intros us G n Hn Ht HG. rewrite add_list_eq.
  assert (E : c_setInputs itime us (BT [] [] []) = BT (M := M * Z) us (clock (S n)) (repeat [] (S n))).
  { unfold c_setInputs, setInputs. cbn [zs]. f_equal.
    - unfold clock. cbn [seq map]. f_equal. clear HG. rewrite <- seq_shift, map_map. subst n.
      assert (Q : forall us (a : nat), (forall k o, nth_error us k = Some o -> itime o = (Z.of_nat (S (a + k)) * dT)%Z) ->
        map itime us = map (fun x => (Z.of_nat (S x) * dT)%Z) (seq a (length us))).
      { induction us0 as [|o r IH]; intros a H; [reflexivity|]. cbn [map length seq]. f_equal.
        - rewrite (H 0 o eq_refl). rewrite Nat.add_0_r. reflexivity.
        - apply IH. intros k o' Hk. rewrite (H (S k) o' Hk). do 2 f_equal. lia. }
      apply (Q us 0). exact Ht.
    - unfold resize. rewrite Hn. rewrite firstn_nil. cbn [length app]. rewrite Nat.sub_0_r. reflexivity. }
  rewrite E. rewrite (add_groups (S n) us G HG (S n) (le_n _)). rewrite Nat.sub_diag. cbn [repeat]. rewrite app_nil_r. reflexivity.
Qed.
End Deliver.

(** From the simulation to the data of the optimiser. *)
Lemma generated_delivered : forall (I : Type) (itime : I -> Z) c poses lms noise u alarms tag dT us, (0 < dT)%Z ->
  length poses = S (length us) -> (forall k o, nth_error us k = Some o -> itime o = (Z.of_nat (S k) * dT)%Z) ->
  exists sees : nat -> nat -> option R,
    (forall k m x l z, nth_error poses k = Some x -> nth_error lms m = Some l -> (sees k m = Some z <-> hits c x l (noise k m) (u k m) z)) /\
    exists g, generate c poses lms noise u alarms tag dT (length poses) = Val g /\
    (length (g_first g) = length lms /\ forall m v, nth_error (g_first g) m = Some v ->
       (v = (-1)%Z /\ forall j, j < length poses -> sees j m = None) \/
       (exists j, j < length poses /\ v = (Z.of_nat j * dT)%Z /\ sees j m <> None /\ forall i, i < j -> sees i m = None)) /\
    exists b, c_addMeasurements fst (g_z g) (g_da g) (c_setInputs itime us (BT [] [] [])) = Val b /\ inputs b = us /\
      zs b = map (fun k => map (fun zd : R * Z => ((Z.of_nat k * dT, fst zd)%Z, snd zd))
        (flat_map (fun m => match sees k m with Some z => [(z, Z.of_nat m)] | None => [] end) (seq 0 (length lms)) ++
         map (fun r => (r, tag)) (alarms k))) (seq 0 (length poses)).
Proof.
  intros I itime c poses lms noise u alarms tag dT us Hd Hl Ht. exists (sees c poses lms noise u).
  split; [intros; apply sees_hits; assumption|].
  destruct (generate_ok c poses lms noise u alarms tag dT ltac:(lia) (length poses) (le_n _)) as (g & E & Ez & Ed & El & Ef).
  exists g. split; [exact E|]. split; [split; [exact El|exact Ef]|].
  rewrite Ez, Ed. unfold all. rewrite Hl. erewrite deliver_ok; [|exact Hd|reflexivity|exact Ht|].
  - eexists. split; [reflexivity|]. cbn [inputs zs]. split; reflexivity.
  - intros k zd H. unfold rows in H. apply in_map_iff in H. destruct H as (x & <- & _). reflexivity.
Qed.
