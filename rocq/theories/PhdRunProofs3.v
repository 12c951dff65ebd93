(** One particle in an update of the PHD filter. *)
From Coq Require Import ZArith QArith Qcanon List Bool Arith Lia Permutation Sorted.
From Verif Require Import Base ListUtil QcLra Loop PermanentSpec PermanentProofs PartitionModel PartitionSpec RfsModel RfsSpec RfsProofs RfsProofs2 RfsProofs6
  PhdModel PhdSpec PhdProofs2 WeighModel WeighSpec WeighProofs WeighProofs2 ParticleModel RbRunModel BirthModel PhdRunModel PhdRunSpec PhdRunProofs PhdRunProofs2.
Import ListNotations.
Local Open Scope Qc_scope.

Lemma prev_in : forall T (new old : list (T * Qc)) g, (forall lm w, In (lm, w) new -> 0 <= w) -> (forall lm w, In (lm, w) old -> 0 <= w) ->
  In g (with_prev T new old) -> 0 <= g_w g /\ 0 <= g_prev g.
Proof.
  intros T. induction new as [|[lm w] new IH]; intros old g Hn Ho Hg; [destruct Hg|].
  assert (W := Hn lm w (or_introl eq_refl)). assert (Hn' : forall l v, In (l, v) new -> 0 <= v) by (intros l v Hi; apply (Hn l); right; exact Hi).
  destruct old as [|[l0 wp] old]; cbn [with_prev] in Hg; destruct Hg as [<-|Hg].
  - cbn. split; [exact W|apply Qcle_refl].
  - apply (IH [] g Hn' Ho Hg).
  - cbn. split; [exact W|]. apply (Ho l0). left. reflexivity.
  - apply (IH old g Hn'); [|exact Hg]. intros l v Hi. apply (Ho l). right. exact Hi.
Qed.

Lemma cluster_pos : forall T (probDet : T -> Qc * bool) correct clutter gateMD birthW tiny expf t0 mix nZ r,
  (forall lm w, In (lm, w) mix -> 0 <= w /\ 0 <= fst (probDet lm) /\ forall z, (z < nZ)%nat -> 0 <= likelihood T correct lm z) ->
  (forall z, (z < nZ)%nat -> 0 < clutter z) -> (forall x, 0 < expf x) ->
  updateMap T probDet correct clutter gateMD birthW tiny expf true t0 mix nZ = Val r -> 0 < rweight T r.
Proof.
  intros T probDet correct clutter gateMD birthW tiny expf t0 mix nZ r H Hcl He Er.
  destruct mix as [|d mix'].
  { unfold updateMap in Er. cbn [length Nat.eqb] in Er. injection Er as <-. reflexivity. }
  set (mix := d :: mix') in *.
  destruct (cluster_factor T probDet correct (fun _ _ => (0, 0)) (fun _ _ => 0) clutter 0 gateMD birthW tiny expf (fun _ _ _ => []) (fun _ _ _ => (fun n => n, 0%nat)) (fun l => l)
    (Settings 0 0 0 true) t0 nZ mix 1 eq_refl ltac:(discriminate)) as (m1 & S1 & E1 & HS & r' & Er' & ->).
  rewrite Er in Er'. injection Er' as <-. unfold WeighModel.weigh in E1. cbn [c_cluster] in E1. rewrite Er in E1. cbn [obind] in E1. rewrite !Qcmult_1_r in E1. injection E1 as ->.
  apply qmul_pos; [apply He|]. apply qprod_pos. intros v Hv. apply in_map_iff in Hv. destruct Hv as (z & <- & Hz). apply in_seq in Hz.
  assert (A := Hcl z ltac:(lia)).
  rewrite (support_U T probDet correct clutter gateMD expf mix d nZ z (S1 z) (HS z)).
  assert (B : 0 <= qsum (map (fun m => PhdProofs.U T probDet correct gateMD mix d m z) (seq 0 (length mix)))).
  { apply qsum_map_nonneg. intros m Hm. apply in_seq in Hm. apply (U_nonneg T probDet correct gateMD mix d nZ); try lia.
    - intros lm w Hi. apply (H lm w Hi).
    - intros lm w Hi. apply (H lm w Hi).
    - intros lm w z' Hi Hlt. apply (H lm w Hi). exact Hlt. }
  qclra.
Qed.

Section One.
Context {Pose M T : Type}.
Variable sn : hsensor Pose M T.
Variable cf : hconf.
Variable o : houtside T.
Hypothesis Hsn : hsensor_sound sn.
Hypothesis Ho : houtside_sound o.

Theorem phd_one_ok : forall zs x mix w, zs <> [] -> (forall lm v, In (lm, v) mix -> 0 <= v) -> 0 < w ->
  exists m w', phd_one sn cf o zs x mix (Some w) = Val m /\ (forall lm v, In (lm, v) (nMap m) -> 0 <= v) /\ mass T (nMap m) <= mass T mix + QcN (length zs) /\
  nW m = Some w' /\ 0 < w' /\ (forall z, In z (nUnused m) -> (z < length zs)%nat) /\ (length (nUnused m) <= length zs)%nat.
Proof.
  intros zs x mix w Hz Hm Hw. destruct Hsn as (S1 & S2 & S3 & S4 & S5 & S6). destruct Ho as (O1 & O2 & O3 & O4 & O5 & O6).
  unfold phd_one. cbn zeta.
  set (cor := fun lm z => match nth_error zs z with Some y => hCor sn x lm y | None => (0, 0, lm) end).
  set (mea := fun lm z => match nth_error zs z with Some y => hMeas sn x lm y | None => (0, 0) end).
  set (clut := fun z => match nth_error zs z with Some y => hClut sn y (length zs) | None => 0 end).
  assert (Hcor : forall lm z, 0 <= likelihood T cor lm z).
  { intros lm z. unfold likelihood, cor. destruct (nth_error zs z) as [y|]; [apply S2|apply Qcle_refl]. }
  assert (Hmea : forall lm z, 0 <= fst (mea lm z)).
  { intros lm z. unfold mea. destruct (nth_error zs z) as [y|]; [apply S3|apply Qcle_refl]. }
  assert (Hcl : forall z, (z < length zs)%nat -> 0 < clut z).
  { intros z Hlt. unfold clut. destruct (nth_error zs z) as [y|] eqn:E; [apply S5|]. apply nth_error_None in E. lia. }
  assert (Hcl0 : forall z, 0 <= clut z).
  { intros z. unfold clut. destruct (nth_error zs z) as [y|]; [apply Qclt_le_weak, S5|apply Qcle_refl]. }
  assert (HnZ : (0 < length zs)%nat) by (destruct zs; [contradiction|cbn; lia]).
  assert (Hmix : forall lm v, In (lm, v) mix -> 0 <= v /\ 0 <= fst (hPd sn x lm) <= 1 /\ forall z, (z < length zs)%nat -> 0 <= likelihood T cor lm z).
  { intros lm v Hi. split; [exact (Hm lm v Hi)|]. destruct (S1 x lm) as [A B]. split; [split; [exact A|apply Qclt_le_weak; exact B]|]. intros z _. apply Hcor. }
  destruct (update_mass T (hPd sn x) cor clut (hGate cf) (hBirthW cf) (xTiny o) (xExp o) (c_cluster (hSet cf)) (tables_new T) mix (length zs) Hmix (fun z _ => Hcl0 z))
    as (r & Er & R1 & R2 & R3 & R4).
  rewrite Er. cbn [obind].
  assert (Fin : forall m, Permutation (rmix T r) m ->
    (forall lm v, In (lm, v) (hprune (hPrune cf) (xMerge o m)) -> 0 <= v) /\ mass T (hprune (hPrune cf) (xMerge o m)) <= mass T mix + QcN (length zs)).
  { intros m HP. assert (A : forall lm v, In (lm, v) m -> 0 <= v) by (intros lm v Hi; apply (R1 lm); apply (Permutation_in _ (Permutation_sym HP)); exact Hi).
    destruct (O6 m A) as [B1 B2]. destruct (prune_mass (hPrune cf) (xMerge o m) B1) as [C1 C2]. split; [exact C1|].
    rewrite B2, <- (mass_perm T _ _ HP) in C2. apply (Qcle_trans _ _ _ C2). exact R2. }
  destruct (c_cluster (hSet cf)) eqn:Ec.
  - assert (Pw : 0 < rweight T r).
    { apply (cluster_pos T (hPd sn x) cor clut (hGate cf) (hBirthW cf) (xTiny o) (xExp o) (tables_new T) mix (length zs)); auto.
      intros lm v Hi. destruct (Hmix lm v Hi) as (A & [B _] & C). auto. }
    eexists _, _. split; [reflexivity|]. cbn [nMap nW nUnused nmul]. destruct (Fin (rmix T r) (Permutation_refl _)) as [F1 F2].
    split; [exact F1|]. split; [exact F2|]. split; [reflexivity|]. split; [apply qmul_pos; assumption|]. split; assumption.
  - destruct (importance_pos T (hPd sn x) mea (hLik sn) clut (hInt sn (length zs)) (xTiny o) (xExp o) (xBest o) (xComp o) (xSort o)
      (S1 x) Hmea S4 Hcl0 (S6 _) O1 O2 O4 O3 O5 (hSet cf) (length zs) (with_prev T (rmix T r) mix) w Hw HnZ Hcl) as (s & w' & Es & Ps & Pw).
    { intros g Hg. apply (prev_in T (rmix T r) mix g R1 Hm Hg). }
    rewrite Es. cbn [obind fst snd]. eexists _, _. split; [reflexivity|]. cbn [nMap nW nUnused].
    assert (PP : Permutation (rmix T r) (map (fun g => (g_lm g, g_w g)) s)).
    { rewrite <- (prev_proj T (rmix T r) mix) at 1. apply Permutation_map. exact Ps. }
    destruct (Fin _ PP) as [F1 F2]. split; [exact F1|]. split; [exact F2|]. split; [reflexivity|]. split; [exact Pw|]. split; assumption.
Qed.
End One.
