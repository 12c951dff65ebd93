(** Runs of the track-based filters whose map update may be undefined, and the lives of their particles. *)
From Coq Require Import ZArith QArith Qcanon List Bool Arith Lia Permutation.
From Verif Require Import Base ListUtil QcLra ParticleModel RbRunModel PermanentSpec PermanentProofs RfsModel RfsSpec LmbModel LmbSpec TrackRunModel TrackRunSpec TrackRunProofs TrackRunProofs2
  TrackLifeSpec TrackLifeProofs MemberModel MemberRunModel MemberRunSpec MemberRunProofs3 ExactModel ExactSpec ExactProofs.
Import ListNotations.
Local Open Scope nat_scope.

Section Cases.
Context {Pose M G : Type}.
Notation tmap := (list (track G)).
Variable one : list M -> Pose -> tmap -> outcome (made G).
Variable inv : Pose -> M -> G.
Variable Mp : tmap -> Prop.
Variable B : Qc -> Prop.
Definition made_ok (zs : list M) (m : made G) : Prop :=
  Mp (mMap m) /\ (0 < mFactor m)%Qc /\ forall k pe, In (k, pe) (mBirths m) -> k < length zs /\ B pe.

(** The filter with undefined updates replaced by empty maps, to which the general theorem applies. *)
Definition total (zs : list M) (x : Pose) (ts : tmap) : outcome (made G) :=
  match one zs x ts with UB UseAfterFree => Val (Made [] [] 1%Qc) | r => r end.
Lemma total_one : forall zs x ts, one zs x ts = UB UseAfterFree \/ one zs x ts = total zs x ts.
Proof. intros zs x ts. unfold total. destruct (one zs x ts) as [m|[]|]; auto. Qed.
Lemma total_upd : forall zs l, upd_all one zs l = UB UseAfterFree \/ upd_all one zs l = upd_all total zs l.
Proof.
  intros zs. induction l as [|p l IH]; cbn [upd_all]; [now right|]. destruct (pdata p) as [d|]; cbn [of_option obind]; [|now right].
  destruct (total_one zs (ppose p) d) as [E|E]; rewrite E; [now left|]. destruct (total zs (ppose p) d) as [m|e|]; cbn [obind]; [|now right|now right].
  destruct IH as [E2|E2]; rewrite E2; [now left|now right].
Qed.
Lemma total_do : forall c s k, tdo one inv c s k = UB UseAfterFree \/ tdo one inv c s k = tdo total inv c s k.
Proof.
  intros c s [mv st|zs u|t]; cbn [tdo]; [now right| |now right]. unfold tupdate. destruct zs as [|z zs]; [now right|].
  destruct (total_upd (z :: zs) (pset (rpf (tRb s)))) as [E|E]; rewrite E; [now left|now right].
Qed.

Hypothesis Hcase : forall zs x ts, zs <> [] -> Mp ts -> (exists m, one zs x ts = Val m /\ made_ok zs m) \/ one zs x ts = UB UseAfterFree.
Hypothesis Hnext : forall stat ts b, Mp ts -> Forall (newborn B) b -> Mp (map (still stat) (ts ++ b)).
Hypothesis Hnil : Mp [].
Lemma total_ok : forall zs x ts, zs <> [] -> Mp ts -> exists m, total zs x ts = Val m /\ made_ok zs m.
Proof using Hcase Hnil.
  intros zs x ts Hz Hm. unfold total. destruct (Hcase zs x ts Hz Hm) as [(m & E & K)|E]; rewrite E; [eauto|].
  eexists. split; [reflexivity|]. split; [exact Hnil|]. split; [reflexivity|intros k pe []].
Qed.
Lemma val_pos : forall zs x ts m, zs <> [] -> Mp ts -> one zs x ts = Val m -> (0 < mFactor m)%Qc.
Proof using Hcase. intros zs x ts m Hz Hm E. destruct (Hcase zs x ts Hz Hm) as [(m' & E' & _ & K & _)|E']; [|congruence]. assert (m' = m) by congruence. now subst. Qed.

(** Every run is undefined in this way, or it is defined and all particles have lives of their own. *)
Theorem case_run : forall c n x0 t ks, 0 < n -> draws_ok ks -> calm false ks ->
  (exists s, trun one inv c (tf_new n x0) (TThreshold t :: ks) = Val s /\ length (pset (rpf (tRb s))) = n /\ all_maps Mp s /\
     lived one inv c n x0 (tlog one inv c (tf_new n x0) (TThreshold t :: ks)) s) \/
  trun one inv c (tf_new n x0) (TThreshold t :: ks) = UB UseAfterFree.
Proof using Hcase Hnext Hnil.
  intros c n x0 t ks Hn Hd Hc.
  assert (K : forall ks h pend s0, draws_ok ks -> calm pend ks -> inv_ Mp B n pend s0 -> lived one inv c n x0 h s0 ->
    (exists s, trun one inv c s0 ks = Val s /\ length (pset (rpf (tRb s))) = n /\ all_maps Mp s /\ lived one inv c n x0 (h ++ tlog one inv c s0 ks) s) \/
    trun one inv c s0 ks = UB UseAfterFree).
  { clear ks t Hd Hc. induction ks as [|k ks IH]; intros h pend s0 Hd Hc S0 T0; cbn [trun tlog].
    { left. exists s0. rewrite app_nil_r. destruct (inv_all _ _ _ _ _ S0) as [A1 A2]. auto. }
    destruct (total_do c s0 k) as [E0|E0]; rewrite E0; [now right|].
    destruct (call_ok total inv Mp B total_ok Hnext c n pend s0 k Hn S0) as (s1 & E1 & S1).
    - destruct k as [mv st|[|z zs] u|t]; cbn in Hc |- *; tauto.
    - intros zs u ->. apply (Hd zs u). now left.
    - rewrite E1. cbn [obind]. match type of S1 with inv_ _ _ _ ?b _ => destruct (IH (h ++ [(k, tresampled k s1)]) b s1) as [(s & E & L & A & T)|E]; [| |exact S1| | |] end.
      + intros zs u Hin. apply (Hd zs u). now right.
      + destruct k as [mv st|[|z zs] u|t]; cbn in Hc |- *; tauto.
      + eapply call_lived; [exact val_pos|exact T0|apply S0|congruence].
      + left. exists s. split; [exact E|]. split; [exact L|]. split; [exact A|]. rewrite <- app_assoc in T. exact T.
      + now right. }
  destruct (start_ok one inv Mp B Hnil n x0 t) as (s0 & S0 & E0). specialize (E0 c []). cbn [trun obind] in E0.
  assert (E1 : tdo one inv c (tf_new n x0) (TThreshold t) = Val s0) by (cbn [tdo obind] in *; exact E0).
  cbn [trun tlog]. rewrite E1. cbn [obind tresampled].
  apply (K ks [(TThreshold t, false)] false s0 Hd Hc S0).
  apply (call_lived _ _ Mp c n x0 val_pos [] (tf_new n x0) (TThreshold t) s0); [apply new_lived| |exact E1]. apply Forall_forall. intros p Hp. cbn in Hp.
  apply in_map_iff in Hp as (q & <- & Hq). apply in_map_iff in Hq as (i & <- & _).
  exists [], 1%Qc. cbn. split; [reflexivity|]. split; [exact Hnil|]. destruct (Qclt_le_dec 1 0) as [H|_]; [now vm_compute in H|]. split; reflexivity.
Qed.
End Cases.

(** ** The labelled multi-Bernoulli filter *)
Section Lmb.
Context {Pose M G : Type}.
Notation tmap := (list (track G)).
Variable sn : sensor Pose M G.
Variable cf : lconf.
Variable o : outside G.
Local Open Scope Qc_scope.

(** The exact update is the one of TrackRunModel up to the order of the tracks, or it is undefined. *)
Lemma exact_same : forall zs x (ts : tmap) out, lmb_raw sn cf o zs x ts = Val out ->
  exists m, lmb_one sn cf o zs x ts = Val m /\
  ((lmb_exact sn cf o zs x ts = UB UseAfterFree /\ doomed filled (below (cTrack cf)) (mergeGM (oMerge o) (lTracks out))) \/
  (exists m', lmb_exact sn cf o zs x ts = Val m' /\ ~ doomed filled (below (cTrack cf)) (mergeGM (oMerge o) (lTracks out)) /\
     Permutation (mMap m') (mMap m) /\ mBirths m' = mBirths m /\ mFactor m' = mFactor m)).
Proof.
  intros zs x ts out E. unfold lmb_exact. rewrite E. cbn [obind]. unfold lmb_one. cbn zeta. unfold lmb_raw in E. cbn zeta in E. rewrite E. cbn [obind].
  eexists. split; [reflexivity|]. destruct (drop_perm filled (below (cTrack cf)) (mergeGM (oMerge o) (lTracks out))) as [(r & -> & P & N)|[-> D]]; cbn [obind]; [right|left; auto].
  eexists. split; [reflexivity|]. split; [exact N|]. cbn [mMap mBirths mFactor]. split; [|auto]. unfold cleanup, pruneGM, pruneTracks. apply Permutation_map. exact P.
Qed.

Hypothesis Hsn : sensor_sound sn.
Hypothesis Hcf : conf_sound cf.
Hypothesis Ho : outside_sound o.
Lemma raw_val : forall zs x (ts : tmap), zs <> [] -> Forall (kept_track (cGauss cf)) ts -> exists out, lmb_raw sn cf o zs x ts = Val out.
Proof using Hsn Hcf Ho.
  intros zs x ts Hz H. destruct (lmb_one_ok sn cf o Hsn Hcf Ho zs x ts Hz H) as (m & E & _). unfold lmb_one in E. cbn zeta in E. unfold lmb_raw. cbn zeta.
  match type of E with obind ?e _ = _ => destruct e as [out|r|]; cbn [obind] in E; [eauto|discriminate|discriminate] end.
Qed.
Lemma exact_cases : forall zs x (ts : tmap), zs <> [] -> Forall (kept_track (cGauss cf)) ts ->
  (exists m, lmb_exact sn cf o zs x ts = Val m /\ made_ok (Forall (kept_track (cGauss cf))) (fun pe => 0 <= pe <= 1) zs m) \/ lmb_exact sn cf o zs x ts = UB UseAfterFree.
Proof using Hsn Hcf Ho.
  intros zs x ts Hz H. destruct (raw_val zs x ts Hz H) as (out & E). destruct (exact_same zs x ts out E) as (m & E1 & [[E2 _]|(m' & E2 & _ & P & Q & R)]); [now right|left].
  destruct (lmb_one_ok sn cf o Hsn Hcf Ho zs x ts Hz H) as (m1 & E3 & K1 & K2 & K3). assert (m1 = m) by congruence. subst m1.
  exists m'. split; [exact E2|]. split; [|rewrite Q, R; auto]. eapply Permutation_Forall; [apply Permutation_sym; exact P|exact K1].
Qed.
Lemma raw_nonneg : forall zs x (ts : tmap) out, zs <> [] -> Forall (kept_track (cGauss cf)) ts -> lmb_raw sn cf o zs x ts = Val out ->
  forall a, In a (mergeGM (oMerge o) (lTracks out)) -> 0 <= tP a.
Proof using Hsn Hcf Ho.
  intros zs x ts out Hz H E a Ha. set (cf' := Lconf (cThr cf) (cMax cf) (cMin cf) (cExp cf) (tP a) (cGauss cf)).
  destruct (lmb_one_ok sn cf' o Hsn Hcf Ho zs x ts Hz H) as (m & E1 & F & _). unfold lmb_one in E1. cbn zeta in E1. unfold lmb_raw in E. cbn zeta in E.
  change (cThr cf') with (cThr cf) in E1. change (cMax cf') with (cMax cf) in E1. change (cMin cf') with (cMin cf) in E1. change (cExp cf') with (cExp cf) in E1.
  rewrite E in E1. cbn [obind] in E1. apply VpProofs4.val_inj in E1. subst m. cbn [mMap] in F. rewrite Forall_forall in F.
  unfold cleanup, pruneGM in F. match type of F with forall x, In x (map ?f _) -> _ => destruct (F (f a)) as [[[P _] _] _] end; [|exact P].
  apply in_map_iff. exists a. split; [reflexivity|]. unfold pruneTracks. apply filter_In. split; [exact Ha|]. apply negb_true_iff, Qcltb_false. cbn [cTrack cf']. apply Qcle_refl.
Qed.
Theorem exact_update : forall zs x (ts : tmap), zs <> [] -> Forall (kept_track (cGauss cf)) ts -> exists out m,
  lmb_raw sn cf o zs x ts = Val out /\ lmb_one sn cf o zs x ts = Val m /\
  (lmb_exact sn cf o zs x ts = UB UseAfterFree <-> doomed filled (below (cTrack cf)) (mergeGM (oMerge o) (lTracks out))) /\
  (lmb_exact sn cf o zs x ts = UB UseAfterFree \/
   exists m', lmb_exact sn cf o zs x ts = Val m' /\ Permutation (mMap m') (mMap m) /\ mBirths m' = mBirths m /\ mFactor m' = mFactor m).
Proof using Hsn Hcf Ho.
  intros zs x ts Hz H. destruct (raw_val zs x ts Hz H) as (out & E). destruct (exact_same zs x ts out E) as (m & E1 & K). exists out, m. split; [exact E|]. split; [exact E1|].
  destruct K as [[K D]|(m' & K & D & R)]; rewrite K; (split; [split|]); auto; [discriminate|tauto|right; eauto].
Qed.

Theorem exact_run : forall c n x0 t ks, (0 < n)%nat -> draws_ok ks -> calm false ks ->
  (exists s, trun (lmb_exact sn cf o) (sInv sn) c (tf_new n x0) (TThreshold t :: ks) = Val s /\ length (pset (rpf (tRb s))) = n /\ all_maps (Forall fair) s /\
     lived (lmb_exact sn cf o) (sInv sn) c n x0 (tlog (lmb_exact sn cf o) (sInv sn) c (tf_new n x0) (TThreshold t :: ks)) s) \/
  (0 < cTrack cf /\ trun (lmb_exact sn cf o) (sInv sn) c (tf_new n x0) (TThreshold t :: ks) = UB UseAfterFree).
Proof using Hsn Hcf Ho.
  intros c n x0 t ks Hn Hd Hc.
  assert (W : forall s : tfilt Pose M G, all_maps (Forall (kept_track (cGauss cf))) s -> all_maps (Forall fair) s).
  { intros s A p Hp. destruct (A p Hp) as (ts & w & A1 & A2 & A3). exists ts, w. split; [exact A1|]. split; [|exact A3]. eapply Forall_impl; [|exact A2]. now intros t0 []. }
  assert (R := case_run (lmb_exact sn cf o) (sInv sn) (Forall (kept_track (cGauss cf))) (fun pe => 0 <= pe <= 1) exact_cases (next_kept (cGauss cf)) (Forall_nil _) c n x0 t ks Hn Hd Hc).
  destruct R as [(s & E & L & A & T)|E]; [left; exists s; auto 6|].
  destruct (Qclt_le_dec 0 (cTrack cf)) as [C|C]; [right; auto|exfalso].
  assert (R := fun H1 => @run_lived Pose M G (lmb_exact sn cf o) (sInv sn) (Forall (kept_track (cGauss cf))) (fun pe => 0 <= pe <= 1) c n x0 H1 (next_kept (cGauss cf)) (Forall_nil _) t ks Hn Hd Hc).
  destruct R as (s & E1 & _); [|congruence]. intros zs x ts Hz H. destruct (exact_cases zs x ts Hz H) as [K|K]; [exact K|exfalso].
  destruct (raw_val zs x ts Hz H) as (out & E2). destruct (exact_same zs x ts out E2) as (m & E3 & [[_ D]|(m' & E4 & _)]); [|congruence].
  destruct D as (l & a & r & D1 & D2 & D3). inversion D3 as [|? ? D4 _]; subst. unfold below in D4. apply Qcltb_true in D4.
  assert (P := raw_nonneg zs x ts out Hz H E2 a). rewrite D1 in P. specialize (P ltac:(apply in_or_app; right; now left)).
  clear - C D4 P. qclra.
Qed.
End Lmb.

(** ** The CB-MeMBer filter *)
Theorem cb_lived : forall {Pose M G : Type} (sn : sensor Pose M G) integral cf o,
  csensor_sound sn integral -> coutside_sound o -> (0 < bBirth cf < 1)%Qc ->
  forall c n x0 t ks s, 0 < n -> draws_ok ks -> calm false ks ->
  trun (cb_one sn integral cf o) (sInv sn) c (tf_new n x0) (TThreshold t :: ks) = Val s ->
  lived (cb_one sn integral cf o) (sInv sn) c n x0 (tlog (cb_one sn integral cf o) (sInv sn) c (tf_new n x0) (TThreshold t :: ks)) s.
Proof.
  intros Pose M G sn integral cf o Hsn Ho Hb c n x0 t ks s Hn Hd Hc E.
  destruct (case_run (cb_one sn integral cf o) (sInv sn) (Forall (cb_fine cf)) (fun pe => pe = bBirth cf)) with (c := c) (n := n) (x0 := x0) (t := t) (ks := ks) as [(s' & E' & _ & _ & T)|E']; auto.
  - intros zs x ts Hz H. destruct (cb_one_cases sn integral cf o Hsn Ho Hb zs x ts Hz H) as [(m & K & R)|[_ K]]; [left; exists m; split; [exact K|exact R]|now right].
  - apply next_fine. exact Hb.
  - rewrite E in E'. apply VpProofs4.val_inj in E'. subst s'. exact T.
  - congruence.
Qed.
