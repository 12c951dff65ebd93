(** Proofs about the particle weighting of the PHD filter: the weight. *)
From Coq Require Import ZArith List Bool Arith QArith Qcanon Lia Sorted Permutation.
From Verif Require Import Base ListUtil QcLra Loop PermanentSpec PermanentProofs PartitionModel PartitionSpec RfsModel RfsSpec
  RfsProofs RfsProofs2 RfsProofs4 RfsProofs5 PhdModel PhdSpec PhdProofs PhdProofs2 LmbModel LmbSpec MemberModel WeighModel WeighSpec
  WeighProofs.
Import ListNotations.
Local Open Scope Qc_scope.

Section Prev.
Variable T : Type.
Notation proj := (fun g : gauss T => (g_lm g, g_w g)).

Lemma prev_proj : forall new old, map proj (with_prev T new old) = new.
Proof.
  induction new as [|[lm w] new IH]; intros old; [reflexivity|]. destruct old as [|[l0 wp] old]; cbn; rewrite IH; reflexivity.
Qed.
Lemma prev_length : forall new old, length (with_prev T new old) = length new.
Proof. intros new old. rewrite <- (prev_proj new old) at 2. rewrite map_length. reflexivity. Qed.

Lemma prev_nil : forall (f : T -> Qc) new, qsum (map (fun g => g_prev g * f (g_lm g)) (with_prev T new [])) = 0.
Proof.
  intros f. induction new as [|[lm w] new IH]; [reflexivity|]. cbn [with_prev map g_prev g_lm]. rewrite qsum_cons, IH. ring.
Qed.

Lemma prev_sum : forall (f : T -> Qc) old new, (forall i lm w, nth_error old i = Some (lm, w) -> exists w', nth_error new i = Some (lm, w')) ->
  qsum (map (fun g => g_prev g * f (g_lm g)) (with_prev T new old)) = qsum (map (fun g => snd g * f (fst g)) old).
Proof.
  intros f. induction old as [|[lm w] old IH]; intros new H; [apply prev_nil|].
  destruct (H 0%nat lm w eq_refl) as (w' & E). destruct new as [|[l0 w0] new]; [discriminate|]. cbn in E. injection E as -> ->.
  cbn [with_prev map g_prev g_lm fst snd]. rewrite !qsum_cons, IH; [reflexivity|].
  intros i l x Hi. exact (H (S i) l x Hi).
Qed.
End Prev.

Lemma qprod_pos : forall l, (forall x, In x l -> 0 < x) -> 0 < qprod l.
Proof.
  induction l as [|x l IH]; intros H; [reflexivity|]. rewrite qprod_cons.
  assert (0 < x) by (apply H; left; reflexivity). assert (0 < qprod l) by (apply IH; intros; apply H; right; assumption). qcnra.
Qed.

Lemma qsum_map_nonneg : forall {X} (f : X -> Qc) l, (forall x, In x l -> 0 <= f x) -> 0 <= qsum (map f l).
Proof.
  intros X f l H. apply RfsProofs3.qsum_nonneg. intros y Hy. apply in_map_iff in Hy. destruct Hy as (x & <- & Hx). auto.
Qed.

Section Weight.
Variable T : Type.
Variable probDet : T -> Qc * bool.
Variable correct : T -> nat -> Qc * Qc * T.
Variable meas : T -> nat -> Qc * Qc.
Variable glik : T -> T -> Qc.
Variable clutter : nat -> Qc.
Variable integral : Qc.
Variables gateMD birthW tiny : Qc.
Variable expf : Qc -> Qc.
Variable kbest : nat -> nat -> (nat -> nat -> Qc) -> list (list nat).
Variable comps : (nat -> nat -> Z) -> nat -> nat -> (nat -> nat) * nat.
Variable srt : list (gauss T) -> list (gauss T).
Notation proj := (fun g : gauss T => (g_lm g, g_w g)).
Notation weigh := (weigh T probDet correct meas glik clutter integral gateMD birthW tiny expf kbest comps srt).
Notation update := (updateMap T probDet correct clutter gateMD birthW tiny expf).

(** Cluster process: the factor. *)
Theorem cluster_factor : forall c t0 nZ mix weight, c_cluster c = true -> mix <> [] ->
  exists mix' S, weigh c t0 nZ mix weight =
    Val (mix', expf (tiny + mass T mix) * qprod (map (fun z => clutter z + S z) (seq 0 nZ)) * weight) /\
  (forall z, support_of T probDet correct gateMD mix z (S z)) /\
  exists r, update true t0 mix nZ = Val r /\ mix' = rmix T r.
Proof.
  intros c t0 nZ mix weight Hc Hne. destruct mix as [|g0 mix0] eqn:Em; [contradiction|]. rewrite <- Em in *.
  assert (Hl : length mix <> 0%nat) by (rewrite Em; cbn; lia).
  destruct (update_exact T probDet correct clutter gateMD birthW tiny expf mix g0 nZ t0 Hl true) as (t & mx & E & _).
  exists mx, (fun z => qsum (map (fun m => PhdProofs.U T probDet correct gateMD mix g0 m z) (seq 0 (length mix)))).
  split; [|split].
  - unfold WeighModel.weigh. rewrite Hc, E. cbn [obind rmix rweight].
    rewrite (fold_sum (fun g : T * Qc => snd g)).
    rewrite fold_mul, Qcmult_1_l. reflexivity.
  - intros z. apply (support_ex T probDet correct clutter gateMD expf mix g0 nZ).
  - eexists. split; [exact E|reflexivity].
Qed.

(** What the map update leaves. *)
Lemma update_shape : forall t0 mix nZ, mix <> [] -> exists r, update false t0 mix nZ = Val r /\
  (length (rmix T r) <= length mix * S nZ)%nat /\ rmix T r <> [] /\
  (forall i lm w, nth_error mix i = Some (lm, w) -> exists w', nth_error (rmix T r) i = Some (lm, w')).
Proof.
  intros t0 mix nZ Hne. destruct mix as [|g0 mix0] eqn:Em; [contradiction|]. rewrite <- Em in *.
  assert (Hl : length mix <> 0%nat) by (rewrite Em; cbn; lia).
  destruct (update_exact T probDet correct clutter gateMD birthW tiny expf mix g0 nZ t0 Hl false) as (t & mx & E & E1 & E2 & _).
  eexists. split; [exact E|]. cbn [rmix]. split; [|split].
  - rewrite E1. assert (K : forall X (P : X -> bool) l, (length (filter P l) <= length l)%nat).
    { intros X P. induction l as [|x l IH]; [reflexivity|]. cbn. destruct (P x); cbn; lia. }
    eapply Nat.le_trans; [apply Nat.add_le_mono_l, K|]. unfold upto. cbn [seq map]. rewrite app_nil_r, prod_length, !seq_length. lia.
  - intros ->. cbn in E1. lia.
  - intros i lm w Hi. assert (Hi' : (i < length mix)%nat) by (apply nth_error_Some; congruence).
    rewrite (E2 i Hi'). rewrite (nth_error_nth' mix g0 Hi') in Hi. injection Hi as Hi. rewrite Hi. eauto.
Qed.

Hypothesis Hsrt : sort_contract srt.
Hypothesis Hcomps : comps_contract comps.
Hypothesis Hkbest : kbest_contract kbest.
Hypothesis Hproper : proper probDet correct meas glik clutter integral tiny.

Theorem weight_value : forall c t0 nZ mix weight, c_cluster c = false -> mix <> [] -> (0 < nZ)%nat ->
  (forall lm w, In (lm, w) mix -> 0 <= w) ->
  (- 2 ^ 31 <= c_points c < 2 ^ 31)%Z -> c_points c <> 0%Z -> (Z.of_nat (length mix * S nZ) < 2 ^ 31)%Z ->
  exists r mix' w' ev ps lik s,
  update false t0 mix nZ = Val r /\ weigh c t0 nZ mix weight = Val (mix', w') /\
  Permutation (rmix T r) mix' /\ StronglySorted (fun a b => snd b <= snd a) mix' /\
  heaviest T probDet (c_weight c) (c_points c) mix' ev /\ found T probDet mix' ev ps /\
  (let L := seen_as T meas (c_gate2 c) ps in
   association_sum (length ps) nZ L (swapped nZ L (chance T ps)) clutter s /\
   0 <= lik /\ lik * integral <= s /\ (groups_small L (chance T ps) clutter (length ps) nZ -> lik * integral = s)) /\
  w' * qprod (map (fun p => tiny + intensity T glik (rmix T r) (fst p)) ps) =
  lik * qprod (map (fun p => tiny + intensity T glik mix (fst p)) ps) * expf (mass T (rmix T r) - mass T mix) * weight /\
  0 < qprod (map (fun p => tiny + intensity T glik (rmix T r) (fst p)) ps).
Proof.
  intros c t0 nZ mix weight Hc Hne HnZ Hw Hcfg Hc0 Hlen.
  destruct Hproper as (P1 & P2 & P3 & P4 & P5 & P6 & P7).
  destruct (update_shape t0 mix nZ Hne) as (r & Er & Lr & Nr & Kr).
  assert (Wr : forall lm w, In (lm, w) (rmix T r) -> 0 <= w).
  { destruct (update_nonneg T probDet correct clutter gateMD birthW tiny expf false t0 mix nZ) as (r2 & E2 & H2).
    - intros lm w Hi. split; [eauto|]. split; [apply P1|]. intros z _. apply P2.
    - intros z _. apply P5.
    - rewrite Er in E2. injection E2 as <-. exact H2. }
  set (l := with_prev T (rmix T r) mix).
  assert (Ll : length l = length (rmix T r)) by apply prev_length.
  destruct (Hsrt l) as [Ps Ss].
  assert (Ls : length (srt l) = length (rmix T r)) by (rewrite <- Ll; symmetry; apply Permutation_length; exact Ps).
  assert (Sne : srt l <> []) by (intros K; rewrite K in Ls; cbn in Ls; destruct (rmix T r); [contradiction|discriminate]).
  destruct (selection T probDet (c_weight c) (c_points c) (srt l) Hcfg ltac:(rewrite Ls; lia) Hc0 Sne Ss) as (HH & ps & Eps & Fps).
  rewrite Ls in *. rewrite <- Ll in HH, Eps, Fps.
  set (ev := pick T probDet (c_weight c) (eval_count (c_points c) (length l)) 0 (srt l) []) in *.
  assert (Hpd : forall m, 0 <= point_pd T ps m <= 1).
  { intros m. unfold point_pd. destruct (nth_error ps m) as [[lm pd]|] eqn:E; [|split; discriminate].
    assert (K : exists i, In i (map fst ev) /\ exists w, nth_error (map proj (srt l)) i = Some (lm, w) /\ pd = fst (probDet lm)).
    { clear - Fps E. revert m E. induction Fps as [|i p is ps Hp F IH]; intros [|m] E; try discriminate.
      - injection E as ->. cbn [fst snd] in Hp. exists i. split; [left; reflexivity|exact Hp].
      - destruct (IH m E) as (i0 & A & B). exists i0. split; [right; exact A|exact B]. }
    destruct K as (_ & _ & w & _ & ->). apply P1. }
  set (L := point_table T meas (c_gate2 c) ps).
  assert (HL : forall m z, 0 <= L m z).
  { intros m z. unfold L, point_table. destruct (nth_error ps m) as [[lm pd]|] eqn:E; [|discriminate].
    destruct (Qcltb (c_gate2 c) (snd (meas lm z))); [discriminate|].
    specialize (Hpd m). unfold point_pd in Hpd. rewrite E in Hpd. apply qmul_nonneg; [apply P3|apply Hpd]. }
  destruct (rfs_exact L (point_pd T ps) clutter 8 kbest HL Hpd P5 Hkbest
     (fst (comps (sig L) (length ps) nZ)) (snd (comps (sig L) (length ps) nZ)) integral (length ps) nZ P6 ltac:(lia)
     (Hcomps (support L) (length ps) nZ)) as (lik & s & Elik & As & Al0 & Al1 & Al2).
  assert (EA : forall x, at_after T glik tiny (srt l) x = tiny + intensity T glik (rmix T r) x).
  { intros x. unfold at_after. rewrite (fold_sum (fun g => g_w g * glik (g_lm g) x)). f_equal.
    rewrite (qsum_perm _ _ (Permutation_map _ (Permutation_sym Ps))). unfold intensity, l.
    rewrite <- (prev_proj T (rmix T r) mix) at 2. rewrite map_map. reflexivity. }
  assert (EB : forall x, at_before T glik tiny (srt l) x = tiny + intensity T glik mix x).
  { intros x. unfold at_before. rewrite (fold_sum (fun g => g_prev g * glik (g_lm g) x)). f_equal.
    rewrite (qsum_perm _ _ (Permutation_map _ (Permutation_sym Ps))). unfold intensity, l.
    apply (prev_sum T (fun y => glik y x)). exact Kr. }
  assert (EPA : prod_after T glik tiny (srt l) ps = qprod (map (fun p => tiny + intensity T glik (rmix T r) (fst p)) ps)).
  { unfold prod_after. rewrite (fold_prod (fun p : T * Qc => at_after T glik tiny (srt l) (fst p))), Qcmult_1_l. f_equal.
    apply map_ext. intros p. apply EA. }
  assert (EPB : prod_before T glik tiny (srt l) ps = qprod (map (fun p => tiny + intensity T glik mix (fst p)) ps)).
  { unfold prod_before. rewrite (fold_prod (fun p : T * Qc => at_before T glik tiny (srt l) (fst p))), Qcmult_1_l. f_equal.
    apply map_ext. intros p. apply EB. }
  assert (ESA : sum_after T (srt l) = mass T (rmix T r)).
  { unfold sum_after. rewrite (fold_sum (fun g : gauss T => g_w g)), Qcplus_0_l.
    rewrite (qsum_perm _ _ (Permutation_map _ (Permutation_sym Ps))). unfold mass, l.
    rewrite <- (prev_proj T (rmix T r) mix) at 2. rewrite map_map. reflexivity. }
  assert (ESB : sum_before T (srt l) = mass T mix).
  { unfold sum_before. rewrite (fold_sum (fun g : gauss T => g_prev g)), Qcplus_0_l.
    rewrite (qsum_perm _ _ (Permutation_map _ (Permutation_sym Ps))). unfold mass, l.
    assert (K := prev_sum T (fun _ => 1) mix (rmix T r) Kr).
    rewrite (map_ext (fun g => g_prev g * 1) (fun g : gauss T => g_prev g)) in K by (intros; ring).
    rewrite (map_ext (fun g : T * Qc => snd g * 1) (fun g : T * Qc => snd g)) in K by (intros; ring).
    exact K. }
  assert (Pos : 0 < prod_after T glik tiny (srt l) ps).
  { rewrite EPA. apply qprod_pos. intros x Hx. apply in_map_iff in Hx. destruct Hx as (p & <- & _).
    assert (0 <= intensity T glik (rmix T r) (fst p)).
    { apply qsum_map_nonneg. intros [lm w] Hx. cbn [fst snd]. apply qmul_nonneg; [eapply Wr; exact Hx|apply P4]. }
    qclra. }
  exists r, (map proj (srt l)).
  exists (lik * prod_before T glik tiny (srt l) ps / prod_after T glik tiny (srt l) ps * expf (sum_after T (srt l) - sum_before T (srt l)) * weight).
  exists (map fst ev), ps, lik, s.
  split; [exact Er|]. split.
  { unfold WeighModel.weigh. rewrite Hc, Er. cbn [obind]. unfold importance. fold l. fold ev.
    destruct (Z.eqb_spec (eval_count (c_points c) (length l)) 0) as [K|_].
    { exfalso. destruct (count_ok (c_points c) (length l) Hcfg ltac:(lia)) as [C1 C2].
      assert (1 <= length l)%nat by (rewrite Ll; destruct (rmix T r); [contradiction|cbn; lia]).
      destruct (Z.lt_ge_cases (c_points c) 0); [rewrite C2 in K|rewrite C1 in K]; lia. }
    rewrite Eps. cbn [obind]. fold L. rewrite Elik. cbn [obind].
    destruct (Qc_eq_dec (prod_after T glik tiny (srt l) ps) 0) as [K|_]; [rewrite K in Pos; discriminate|]. reflexivity. }
  split.
  { apply (Permutation_trans (l' := map proj l)); [unfold l; rewrite prev_proj; reflexivity|]. apply Permutation_map. exact Ps. }
  split; [apply map_sorted; exact Ss|]. split; [exact HH|]. split; [exact Fps|]. split.
  { split; [exact As|]. split; [exact Al0|]. split; [exact Al1|exact Al2]. }
  rewrite <- EPA, <- EPB, ESA, ESB. split; [|exact Pos].
  field. apply Qcpos_neq. exact Pos.
Qed.

(** The new weight is a factor times the old one. *)
Theorem proportional : forall c t0 nZ mix, mix <> [] -> (0 < nZ)%nat -> (forall x, 0 <= expf x) ->
  (forall lm w, In (lm, w) mix -> 0 <= w) ->
  (- 2 ^ 31 <= c_points c < 2 ^ 31)%Z -> c_points c <> 0%Z -> (Z.of_nat (length mix * S nZ) < 2 ^ 31)%Z ->
  exists mix' f, 0 <= f /\ forall weight, weigh c t0 nZ mix weight = Val (mix', f * weight).
Proof.
  intros c t0 nZ mix Hne HnZ He Hw Hcfg Hc0 Hlen.
  destruct Hproper as (P1 & P2 & P3 & P4 & P5 & P6 & P7).
  destruct (c_cluster c) eqn:Hc.
  - destruct (cluster_factor c t0 nZ mix 1 Hc Hne) as (m1 & S1 & E1 & HS & r & Er & ->).
    eexists. eexists. split; [|intros weight; unfold WeighModel.weigh; rewrite Hc, Er; cbn [obind]; reflexivity].
    unfold WeighModel.weigh in E1. rewrite Hc, Er in E1. cbn [obind] in E1. rewrite !Qcmult_1_r in E1. injection E1 as ->.
    apply qmul_nonneg; [apply He|]. apply qprod_nonneg. intros x Hx. apply in_map_iff in Hx. destruct Hx as (z & <- & Hz).
    apply in_seq in Hz. destruct mix as [|g0 mix0] eqn:Em; [contradiction|]. rewrite <- Em in *.
    rewrite (support_U T probDet correct clutter gateMD expf mix g0 nZ z (S1 z) (HS z)).
    apply (tot_nonneg T probDet correct clutter gateMD mix g0 nZ); [intros; eauto|intros; apply P1|intros; apply P2|intros; apply P5|lia].
  - destruct (weight_value c t0 nZ mix 1 Hc Hne HnZ Hw Hcfg Hc0 Hlen) as (r & mix' & w' & ev & ps & lik & s & Er & E & _ & _ & _ & _ & (_ & Hl & _) & Ew & Pos).
    exists mix', w'. split.
    + rewrite Qcmult_1_r in Ew. apply (Qcmul_le 0 w' _ Pos). rewrite Ew, Qcmult_0_l.
      apply qmul_nonneg; [apply qmul_nonneg; [exact Hl|]|apply He]. apply qprod_nonneg. intros x Hx. apply in_map_iff in Hx.
      destruct Hx as (p & <- & _). assert (0 <= intensity T glik mix (fst p)); [|qclra].
      apply qsum_map_nonneg. intros [lm w] Hx. cbn [fst snd]. apply qmul_nonneg; [eapply Hw; exact Hx|apply P4].
    + intros weight. destruct (weight_value c t0 nZ mix weight Hc Hne HnZ Hw Hcfg Hc0 Hlen) as (r3 & mix3 & w3 & ev3 & ps3 & lik3 & s3 & _ & E2 & _).
      unfold WeighModel.weigh in *. rewrite Hc, Er in *. cbn [obind] in *. unfold importance in *.
      destruct (eval_count (c_points c) (length (with_prev T (rmix T r) mix)) =? 0)%Z eqn:E0.
      { exfalso. apply Z.eqb_eq in E0. destruct (update_shape t0 mix nZ Hne) as (r2 & Er2 & Lr & Nr & _). rewrite Er in Er2. injection Er2 as <-.
        rewrite prev_length in E0.
        destruct (count_ok (c_points c) (length (rmix T r)) Hcfg ltac:(lia)) as [C1 C2].
        assert (1 <= length (rmix T r))%nat by (destruct (rmix T r); [contradiction|cbn; lia]).
        destruct (Z.lt_ge_cases (c_points c) 0); [rewrite C2 in E0|rewrite C1 in E0]; lia. }
      destruct (points _ _ _) as [ps2|u|]; [|discriminate|discriminate]. cbn [obind] in *.
      destruct (rfs_likelihood _ _ _ _ _ _ _ _ _ _) as [lk|u|]; [|discriminate|discriminate]. cbn [obind] in *.
      destruct (Qc_eq_dec _ 0); [discriminate|]. cbn [obind fst snd] in *. injection E as <- <-. rewrite Qcmult_1_r. reflexivity.
Qed.

(** A particle that can see none of its landmarks. *)
Theorem blind : forall c t0 nZ mix weight, c_cluster c = false -> mix <> [] -> (0 < nZ)%nat ->
  (forall lm w, In (lm, w) mix -> 0 <= w /\ probDet lm = (0, false)) ->
  (- 2 ^ 31 <= c_points c < 2 ^ 31)%Z -> c_points c <> 0%Z -> (Z.of_nat (length mix * S nZ) < 2 ^ 31)%Z ->
  exists mix', weigh c t0 nZ mix weight = Val (mix', qprod (map clutter (seq 0 nZ)) / integral * expf 0 * weight) /\
  Permutation mix mix'.
Proof.
  intros c t0 nZ mix weight Hc Hne HnZ Hb Hcfg Hc0 Hlen.
  destruct (weight_value c t0 nZ mix weight Hc Hne HnZ (fun lm w H => proj1 (Hb lm w H)) Hcfg Hc0 Hlen)
    as (r & mix' & w' & ev & ps & lik & s & Er & E & Pm & _ & (_ & Hel & _) & Hf & (As & _ & _ & Al) & Ew & _).
  assert (Em : rmix T r = mix).
  { destruct mix as [|g0 mix0] eqn:Em; [contradiction|]. rewrite <- Em in *.
    assert (Hl : length mix <> 0%nat) by (rewrite Em; cbn; lia).
    destruct (update_exact T probDet correct clutter gateMD birthW tiny expf mix g0 nZ t0 Hl false) as (t & mx & E1 & E2 & E3 & _).
    rewrite Er in E1. injection E1 as ->. cbn [rmix].
    assert (Hat : forall i, (i < length mix)%nat -> probDet (fst (nth i mix g0)) = (0, false)).
    { intros i Hi. apply (Hb _ (snd (nth i mix g0))). rewrite <- surjective_pairing. apply nth_In. exact Hi. }
    assert (F0 : filter (PhdProofs.ob T probDet correct clutter gateMD mix g0) (upto nZ (length mix) 0) = []).
    { 
      assert (K : forall X (P : X -> bool) l, (forall x, In x l -> P x = false) -> filter P l = []).
      { intros X P. induction l as [|x l IH]; intros H; [reflexivity|]. cbn. rewrite (H x (or_introl eq_refl)). apply IH.
        intros y Hy. apply H. right. exact Hy. }
      apply K. intros [m z] Hm. apply in_upto in Hm. unfold PhdProofs.ob, PhdProofs.gb, pdet. cbn [fst snd].
      rewrite (Hat m ltac:(lia)). cbn [fst snd]. destruct (Qc_eq_dec 0 0); [reflexivity|contradiction]. }
    rewrite F0 in E2. cbn in E2. apply list_ext. intros i. destruct (Nat.lt_ge_cases i (length mix)) as [Hi|Hi].
    - rewrite (E3 i Hi), (nth_error_nth' mix g0 Hi). unfold PhdProofs.W, pdet. rewrite (Hat i Hi). cbn [fst snd andb].
      rewrite (surjective_pairing (nth i mix g0)) at 3. f_equal. f_equal. ring.
    - rewrite !(proj2 (nth_error_None _ _)) by lia. reflexivity. }
  rewrite Em in Pm, Ew.
  assert (Eps : ps = []).
  { destruct Hf as [|i p is ps' _ _]; [reflexivity|]. exfalso. destruct (Hel i (or_introl eq_refl)) as ([lm w] & Hi & _ & Hpd).
    cbn [fst] in Hpd. apply nth_error_In in Hi. apply (Permutation_in _ (Permutation_sym Pm)) in Hi.
    destruct (Hb lm w Hi) as [_ K]. rewrite K in Hpd. discriminate. }
  subst ps. cbn [map length] in *. rewrite !qprod_nil in Ew.
  assert (Es : s = qprod (map clutter (seq 0 nZ))).
  { apply association_sum_iff in As. cbn [asum seq] in As. exact As. }
  assert (Gs0 : groups_small (seen_as T meas (c_gate2 c) []) (chance T []) clutter 0 nZ).
  { intros il jl (_ & _ & (i & j & _ & _ & H) & _). exfalso. unfold seen_as in H. destruct i; discriminate. }
  specialize (Al Gs0). destruct Hproper as (_ & _ & _ & _ & _ & P6 & _).
  exists mix'. split; [|exact Pm]. rewrite E. f_equal. f_equal.
  rewrite !Qcmult_1_r in Ew. rewrite Ew. replace (mass T mix - mass T mix) with 0 by ring. rewrite <- Es, <- Al.
  field. apply Qcpos_neq. exact P6.
Qed.
End Weight.
