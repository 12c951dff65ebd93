(** Runs of the labelled multi-Bernoulli filter. *)
From Coq Require Import ZArith QArith Qcanon List Bool Arith Lia.
From Verif Require Import Base ListUtil QcLra ParticleModel ParticleSpec RbRunModel RbRunProofs RbRunProofs2 FastRunProofs FastRunProofs3
  PermanentSpec PermanentProofs PartitionSpec RfsModel RfsSpec RfsProofs LmbModel LmbSpec LmbProofs LmbProofs2 LmbProofs3 LmbProofs4 TrackRunModel TrackRunSpec TrackRunProofs VpProofs4.
Import ListNotations.
Local Open Scope Qc_scope.

Section Lmb.
Context {Pose M G : Type}.
Notation tmap := (list (track G)).

(** The probability of detection of a track stays below one. *)
Lemma sum_below : forall (pd : G -> Qc) (gs : list (Qc * G)), (forall g, 0 <= pd g < 1) -> (forall w g, In (w, g) gs -> 0 <= w) ->
  0 <= qsum (map (fun g => fst g * pd (snd g)) gs) /\
  ((qsum (map fst gs) = 0 /\ qsum (map (fun g => fst g * pd (snd g)) gs) = 0) \/ qsum (map (fun g => fst g * pd (snd g)) gs) < qsum (map fst gs)).
Proof.
  intros pd gs Hp. induction gs as [|[w g] gs IH]; intros H; cbn [map fst snd]; rewrite ?qsum_nil, ?qsum_cons; [split; [apply Qcle_refl|now left]|].
  assert (Hw := H w g (or_introl eq_refl)). destruct (IH (fun w' g' Hin => H w' g' (or_intror Hin))) as [A B]. destruct (Hp g) as [P1 P2].
  set (a := qsum (map (fun g => fst g * pd (snd g)) gs)) in *. set (b := qsum (map fst gs)) in *. clearbody a b. set (p := pd g) in *. clearbody p. assert (Hwp := qmul_nonneg w p Hw P1). split; [qclra|].
  apply Qcle_lt_or_eq in Hw. destruct Hw as [Hw|<-].
  - right. assert (w * p < w) by (clear - Hw P2; qcnra). destruct B as [[-> ->]|B]; qclra.
  - destruct B as [[-> ->]|B]; [left; split; ring|right; qclra].
Qed.
Lemma pd_below : forall (pd : G -> Qc) t, (forall g, 0 <= pd g < 1) -> fair t -> 0 <= pd_of pd t < 1.
Proof.
  intros pd t Hp (_ & H1 & H2). unfold pd_of. destruct (sum_below pd (tG t) Hp H1) as [A [[_ ->]|B]]; split; try exact A; try qclra.
Qed.

Lemma filter_sum : forall (f : Qc * G -> bool) gs, (forall w g, In (w, g) gs -> 0 <= w) -> qsum (map fst (filter f gs)) <= qsum (map fst gs).
Proof.
  intros f. induction gs as [|[w g] gs IH]; intros H; cbn [filter map]; rewrite ?qsum_nil; [apply Qcle_refl|].
  assert (Hw := H w g (or_introl eq_refl)). assert (A := IH (fun w' g' Hin => H w' g' (or_intror Hin))).
  destruct (f (w, g)); cbn [map fst]; rewrite ?qsum_cons; qclra.
Qed.

(** What a run keeps: tracks are fair, and if no Gaussian is ever pruned their weights sum to one. *)
Definition kept_track (gaussT : Qc) (t : track G) : Prop := fair t /\ (gaussT <= 0 -> qsum (map fst (tG t)) = 1).

Lemma cleanup_fair : forall merge trackT gaussT (ts : tmap), merge_sound merge -> Forall fair ts -> Forall fair (cleanup merge trackT gaussT ts).
Proof.
  intros merge trackT gaussT ts Hm H. unfold cleanup, pruneGM, pruneTracks, mergeGM. apply Forall_map, Forall_forall. intros t Ht.
  apply filter_In in Ht as [Ht _]. apply in_map_iff in Ht as (t0 & <- & Ht). rewrite Forall_forall in H. destruct (H t0 Ht) as (A1 & A2 & A3).
  destruct (Hm (tG t0) A2) as (M1 & M2 & _). unfold fair. cbn [tP tG]. split; [exact A1|]; split.
  - intros w g Hin. apply filter_In in Hin as [Hin _]. eapply M1. exact Hin.
  - refine (Qcle_trans _ _ _ (filter_sum _ _ M1) _). rewrite M2. exact A3.
Qed.
Lemma cleanup_kept : forall merge trackT gaussT ts, merge_sound merge -> Forall (kept_track gaussT) ts -> Forall (kept_track gaussT) (cleanup merge trackT gaussT ts).
Proof.
  intros merge trackT gaussT ts Hm H. unfold cleanup, pruneGM, pruneTracks, mergeGM. apply Forall_map, Forall_forall. intros t Ht.
  apply filter_In in Ht as [Ht _]. apply in_map_iff in Ht as (t0 & <- & Ht). rewrite Forall_forall in H. destruct (H t0 Ht) as ((A1 & A2 & A3) & A4).
  destruct (Hm (tG t0) A2) as (M1 & M2 & _). unfold kept_track, fair. cbn [tP tG]. split; [split; [exact A1|]; split|].
  - intros w g Hin. apply filter_In in Hin as [Hin _]. eapply M1. exact Hin.
  - refine (Qcle_trans _ _ _ (filter_sum _ _ M1) _). rewrite M2. exact A3.
  - intros Hg. rewrite <- (A4 Hg), <- M2. f_equal. f_equal. transitivity (filter (fun _ => true) (merge (tG t0))).
    + apply filter_ext_in. intros [w g] Hin. cbn [fst]. specialize (M1 w g Hin). destruct (Qcltb w gaussT) eqn:E; [|reflexivity].
      apply Qcltb_true in E. exfalso. revert E. apply Qcle_not_lt. qclra.
    + generalize (merge (tG t0)). induction l as [|a l IH]; [reflexivity|]. cbn [filter]. now rewrite IH.
Qed.

Variable sn : sensor Pose M G.
Variable cf : lconf.
Variable o : outside G.
Hypothesis Hsn : sensor_sound sn.
Hypothesis Hcf : conf_sound cf.
Hypothesis Ho : outside_sound o.

(** Sensor functions by measurement number. *)
Definition corz (zs : list M) (x : Pose) (z : nat) (g : G) : option (G * Qc) := match nth_error zs z with Some y => sCor sn x y g | None => None end.
Definition clutz (zs : list M) (z : nat) : Qc := match nth_error zs z with Some y => sClut sn y | None => 0 end.

Lemma lmb_fair : forall zs x (ts : tmap), zs <> [] -> Forall fair ts ->
  exists out, lmb_one sn cf o zs x ts = Val (Made (cleanup (oMerge o) (cTrack cf) (cGauss cf) (lTracks out)) (lBirths out) (lFactor out)) /\
  length (lTracks out) = length ts /\
  (forall m t, nth_error ts m = Some t -> exists t', nth_error (lTracks out) m = Some t' /\ fair t' /\
     (qsum (map fst (tG t)) = 1 -> qsum (map fst (tG t')) = 1) /\ (pd_of (sPd sn x) t = 0 -> t' = t)) /\
  0 < lFactor out /\ (forall k pe, In (k, pe) (lBirths out) -> (k < length zs)%nat /\ 0 <= pe <= 1).
Proof using Hsn Hcf Ho.
  intros zs x ts Hz Hts. destruct Hsn as (S1 & S2 & S3), Hcf as (C1 & (C2 & C5) & C3 & C4), Ho as (O1 & O2 & O3).
  assert (Hn : (0 < length zs)%nat) by (destruct zs; [congruence|cbn; lia]). rewrite Forall_forall in Hts.
  set (vs := in_view (sPd sn x) 0 ts). set (cc := oComp o (sig (lmbL (corz zs x) (clutz zs) (cThr cf) vs)) (length vs) (length zs)).
  destruct (lmb_ok (sPd sn x) (corz zs x) (clutz zs) (cThr cf) (cMax cf) (cMin cf) (cExp cf) (length zs) (oBest o)) with (cc := fst cc) (ncc := snd cc) (ts := ts)
    as (out & E & L & Tk & F & _ & Bs); auto.
  - intros z Hlt. unfold clutz. destruct (nth_error zs z) as [y|] eqn:Ez; [apply S3|apply nth_error_None in Ez; lia].
  - intros z g g' l. unfold corz. destruct (nth_error zs z) as [y|]; [apply S2|discriminate].
  - intros g. destruct (S1 x g). split; [assumption|now apply Qclt_le_weak].
  - intros t Ht. split; [now apply Hts|]. destruct (pd_below (sPd sn x) t (S1 x) (Hts t Ht)) as [P1 P2]. destruct (Hts t Ht) as ((P3 & P4) & _).
    set (a := pd_of _ _) in *. clearbody a. set (b := tP t) in *. clearbody b.
    assert (P5 : 0 <= a * (1 - b)) by (apply qmul_nonneg; qclra). assert (P6 : a * (1 - b) = a - a * b) by ring. rewrite P6 in P5. qclra.
  - rewrite <- (len_vs (sPd sn x) ts). eapply components_ext; [|apply O1]. intros i j. symmetry. apply sig_support.
  - right. intros t Ht. now apply pd_below; [apply S1|apply Hts].
  - exists out. split.
    { unfold lmb_one. fold vs. change (fun z g => match nth_error zs z with Some y => sCor sn x y g | None => None end) with (corz zs x).
      change (fun z => match nth_error zs z with Some y => sClut sn y | None => 0 end) with (clutz zs). fold cc. rewrite E. reflexivity. }
    split; [exact L|]. split.
    { intros m t Hm. destruct (Tk m t Hm) as (t' & T1 & (T2 & T3) & T4 & _). exists t'. auto. }
    split; [exact F|]. intros k pe Hin. destruct ts as [|t0 ts0] eqn:Ets.
    + destruct (lmb_no_map G (sPd sn x) (corz zs x) (clutz zs) (cThr cf) (cMax cf) (cMin cf) (cExp cf) (length zs) (oBest o) (fst cc) (snd cc)) as (out' & E' & _ & _ & N1 & N2).
      rewrite E' in E. injection E as <-. split.
      * apply (in_map fst) in Hin. rewrite N1 in Hin. apply in_seq in Hin. cbn [fst] in Hin. lia.
      * destruct (N2 k pe Hin) as (Q1 & Q2 & Q3). split; [|qclra]. destruct Q3 as [-> | ->]; [exact C2|].
        apply Qcle_div; [rewrite <- QcN_0; apply QcN_lt; exact Hn|]. replace (0 * QcN (length zs)) with 0 by ring. exact C4.
    + rewrite <- Ets in *. destruct Bs as [B1 _]; [congruence|]. destruct (B1 k pe Hin) as (Q1 & (Q2 & Q4) & Q3). split; [exact Q1|]. split; [qclra|exact Q3].
Qed.

Lemma lmb_one_ok : forall zs x (ts : tmap), zs <> [] -> Forall (kept_track (cGauss cf)) ts -> exists m, lmb_one sn cf o zs x ts = Val m /\
  Forall (kept_track (cGauss cf)) (mMap m) /\ 0 < mFactor m /\ forall k pe, In (k, pe) (mBirths m) -> (k < length zs)%nat /\ 0 <= pe <= 1.
Proof using Hsn Hcf Ho.
  intros zs x ts Hz Hts. destruct (lmb_fair zs x ts Hz) as (out & E & L & Tk & F & Bs); [eapply Forall_impl; [|exact Hts]; now intros t []|].
  eexists. split; [exact E|]. cbn [mMap mFactor mBirths]. split; [|auto]. apply cleanup_kept; [apply Ho|]. apply Forall_forall. intros t' Ht'.
  apply In_nth_error in Ht' as [m Hm]. assert (Hlt : (m < length ts)%nat) by (rewrite <- L; apply nth_error_Some; congruence).
  destruct (nth_error ts m) as [t|] eqn:Et; [|apply nth_error_None in Et; lia]. destruct (Tk m t Et) as (t2 & T1 & T2 & T3 & _).
  assert (t2 = t') by congruence. subst t2. rewrite Forall_forall in Hts. destruct (Hts t (nth_error_In _ _ Et)) as [_ K]. split; [exact T2|auto].
Qed.
Lemma born_kept : forall gaussT pe g, 0 <= pe <= 1 -> kept_track gaussT (Track pe [(1, g)] : track G).
Proof.
  intros gaussT pe g H. split; [split; [exact H|]; split|]; cbn [tG map fst]; [intros w g' [E|[]]; injection E as <- _; discriminate| |intros _];
    rewrite qsum_cons, qsum_nil; [qclra|ring].
Qed.
Lemma still_kept : forall gaussT stat (t : track G), kept_track gaussT t -> kept_track gaussT (still stat t).
Proof.
  intros gaussT stat t ((A1 & A2 & A3) & A4). unfold kept_track, fair, still. cbn [tP tG]. rewrite map_map. cbn [fst].
  split; [split; [exact A1|]; split; [|exact A3]|exact A4]. intros w g Hin. apply in_map_iff in Hin as ([w0 g0] & E & Hin). injection E as <- _. eapply A2. exact Hin.
Qed.

Lemma next_kept : forall gaussT stat (ts b : tmap), Forall (kept_track gaussT) ts -> Forall (newborn (fun pe => 0 <= pe <= 1)) b ->
  Forall (kept_track gaussT) (map (still stat) (ts ++ b)).
Proof.
  intros gaussT stat ts b H1 H2. apply Forall_map, Forall_app. split; [eapply Forall_impl; [|exact H1]; apply still_kept|].
  eapply Forall_impl; [|exact H2]. intros t (pe & g & Hb & ->). now apply still_kept, born_kept.
Qed.

Theorem lmb_run : forall c n x0 t ks, (0 < n)%nat -> draws_ok ks -> calm false ks ->
  exists s, trun (lmb_one sn cf o) (sInv sn) c (tf_new n x0) (TThreshold t :: ks) = Val s /\ length (pset (rpf (tRb s))) = n /\
  all_maps (Forall (kept_track (cGauss cf))) s.
Proof using Hsn Hcf Ho.
  intros c n x0 t ks. apply trun_ok with (B := fun pe => 0 <= pe <= 1); [exact lmb_one_ok|apply next_kept|constructor].
Qed.
Theorem lmb_run_fair : forall c n x0 t ks, (0 < n)%nat -> draws_ok ks -> calm false ks ->
  exists s, trun (lmb_one sn cf o) (sInv sn) c (tf_new n x0) (TThreshold t :: ks) = Val s /\ length (pset (rpf (tRb s))) = n /\ all_maps (Forall fair) s.
Proof using Hsn Hcf Ho.
  intros c n x0 t ks Hn Hd Hc. destruct (lmb_run c n x0 t ks Hn Hd Hc) as (s & E & L & A). exists s. split; [exact E|]. split; [exact L|].
  intros p Hp. destruct (A p Hp) as (ts & w & A1 & A2 & A3). exists ts, w. split; [exact A1|]. split; [|exact A3]. eapply Forall_impl; [|exact A2]. now intros t0 [].
Qed.
Theorem lmb_run_good : forall c n x0 t ks, cGauss cf <= 0 -> (0 < n)%nat -> draws_ok ks -> calm false ks ->
  exists s, trun (lmb_one sn cf o) (sInv sn) c (tf_new n x0) (TThreshold t :: ks) = Val s /\ all_maps (Forall good) s.
Proof using Hsn Hcf Ho.
  intros c n x0 t ks Hg Hn Hd Hc. destruct (lmb_run c n x0 t ks Hn Hd Hc) as (s & E & L & A). exists s. split; [exact E|].
  intros p Hp. destruct (A p Hp) as (ts & w & A1 & A2 & A3). exists ts, w. split; [exact A1|]. split; [|exact A3]. eapply Forall_impl; [|exact A2].
  intros t0 [(B1 & B2 & _) B4]. split; [exact B1|]. split; [exact B2|auto].
Qed.

(** A track without Gaussians is out of view for ever. *)
Definition haunted (p : Qc) (ts : tmap) : Prop := Forall fair ts /\ In (Track p []) ts.
Lemma haunted_one : forall p, cTrack cf <= p -> forall zs x (ts : tmap), zs <> [] -> haunted p ts -> exists m, lmb_one sn cf o zs x ts = Val m /\
  haunted p (mMap m) /\ 0 < mFactor m /\ forall k pe, In (k, pe) (mBirths m) -> (k < length zs)%nat /\ 0 <= pe <= 1.
Proof using Hsn Hcf Ho.
  intros p Hp zs x ts Hz [H1 H2]. destruct (lmb_fair zs x ts Hz H1) as (out & E & L & Tk & F & Bs).
  eexists. split; [exact E|]. cbn [mMap mFactor mBirths]. split; [|auto].
  assert (Fl : Forall fair (lTracks out)).
  { apply Forall_forall. intros t' Ht'. apply In_nth_error in Ht' as [m Hm]. assert (Hlt : (m < length ts)%nat) by (rewrite <- L; apply nth_error_Some; congruence).
    destruct (nth_error ts m) as [t|] eqn:Et; [|apply nth_error_None in Et; lia]. destruct (Tk m t Et) as (t2 & T1 & T2 & _). congruence. }
  split.
  - apply cleanup_fair; [apply Ho|exact Fl].
  - apply In_nth_error in H2 as [m Hm]. destruct (Tk m _ Hm) as (t' & T1 & _ & _ & T4). assert (t' = Track p []) as -> by (apply T4; reflexivity).
    apply nth_error_In in T1. unfold cleanup, pruneGM, pruneTracks, mergeGM. apply in_map_iff. exists (Track p (oMerge o [])). split.
    + cbn [tP tG]. f_equal. destruct Ho as (_ & _ & Hm'). destruct (Hm' []) as (_ & _ & M3); [intros w g []|]. destruct (oMerge o []); [reflexivity|cbn in M3; lia].
    + apply filter_In. split; [apply in_map_iff; now exists (Track p [])|]. cbn [tP]. apply negb_true_iff. destruct (Qcltb p (cTrack cf)) eqn:C; [|reflexivity].
      apply Qcltb_true in C. exfalso. revert C. now apply Qcle_not_lt.
Qed.
Lemma haunted_next : forall p stat (ts b : tmap), haunted p ts -> Forall (newborn (fun pe => 0 <= pe <= 1)) b -> haunted p (map (still stat) (ts ++ b)).
Proof.
  intros p stat ts b [H1 H2] Hb. split.
  - assert (K : Forall (kept_track 1) (map (still stat) (ts ++ b))).
    { apply next_kept; [|exact Hb]. eapply Forall_impl; [|exact H1]. intros t Ht. split; [exact Ht|]. intros C. exfalso. revert C. now apply Qclt_not_le. }
    eapply Forall_impl; [|exact K]. now intros t [].
  - rewrite map_app. apply in_app_iff. left. apply in_map_iff. exists (Track p []). now split.
Qed.

Theorem ghost_run : forall p, cTrack cf <= p -> forall c n x0 t ks1 ks2, (0 < n)%nat -> draws_ok (ks1 ++ ks2) -> calm false (ks1 ++ ks2) ->
  exists s1 s2, trun (lmb_one sn cf o) (sInv sn) c (tf_new n x0) (TThreshold t :: ks1) = Val s1 /\
  trun (lmb_one sn cf o) (sInv sn) c s1 ks2 = Val s2 /\
  (all_maps (fun ts => In (Track p []) ts) s1 -> all_maps (fun ts => In (Track p []) ts) s2).
Proof using Hsn Hcf Ho.
  intros p Hp c n x0 t ks1 ks2 Hn Hd Hc. set (B := fun pe : Qc => 0 <= pe <= 1).
  assert (Hone : forall zs x (ts : tmap), zs <> [] -> Forall (kept_track 1) ts -> exists m, lmb_one sn cf o zs x ts = Val m /\
    Forall (kept_track 1) (mMap m) /\ 0 < mFactor m /\ forall k pe, In (k, pe) (mBirths m) -> (k < length zs)%nat /\ B pe).
  { intros zs x ts Hz Hts. destruct (lmb_fair zs x ts Hz) as (out & E & L & Tk & F & Bs); [eapply Forall_impl; [|exact Hts]; now intros t0 []|].
    eexists. split; [exact E|]. cbn [mMap mFactor mBirths]. split; [|auto]. eapply Forall_impl; [|apply cleanup_fair; [apply Ho|]].
    - intros t0 Ht. split; [exact Ht|]. intros C. exfalso. revert C. now apply Qclt_not_le.
    - apply Forall_forall. intros t' Ht'. apply In_nth_error in Ht' as [m Hm]. assert (Hlt : (m < length ts)%nat) by (rewrite <- L; apply nth_error_Some; congruence).
      destruct (nth_error ts m) as [t0|] eqn:Et; [|apply nth_error_None in Et; lia]. destruct (Tk m t0 Et) as (t2 & T1 & T2 & _). congruence. }
  destruct (start_ok (lmb_one sn cf o) (sInv sn) (Forall (kept_track 1)) B ltac:(constructor) n x0 t) as (s0 & S0 & E0).
  destruct (trun_from _ (sInv sn) _ B Hone (next_kept 1) c n ks1 ks2 false s0 Hn) as (s1 & pend & E1 & S1 & Hc2); [|exact Hc|exact S0|].
  { intros zs u Hin. apply (Hd zs u), in_app_iff. now left. }
  destruct (trun_from _ (sInv sn) _ B Hone (next_kept 1) c n ks2 [] pend s1 Hn) as (s2 & pend2 & E2 & S2 & _); [|now rewrite app_nil_r|exact S1|].
  { intros zs u Hin. apply (Hd zs u), in_app_iff. now right. }
  exists s1, s2. rewrite E0. split; [exact E1|]. split; [exact E2|]. intros Hg.
  assert (S1' : inv_ (haunted p) B n pend s1).
  { destruct S1 as (L1 & L2 & Hok & R). split; [exact L1|]. split; [exact L2|]. split; [|exact R]. apply Forall_forall. intros q Hq.
    rewrite Forall_forall in Hok. destruct (Hok q Hq) as (ts & w & A1 & A2 & A3). destruct (Hg q Hq) as (ts' & w' & A1' & A2' & _).
    assert (ts' = ts) by congruence. subst ts'. exists ts, w. split; [exact A1|]. split; [|exact A3]. split; [|exact A2'].
    eapply Forall_impl; [|exact A2]. now intros t0 []. }
  destruct (trun_from _ (sInv sn) _ B (haunted_one p Hp) (haunted_next p) c n ks2 [] pend s1 Hn) as (s2' & pend3 & E3 & S3 & _); [|now rewrite app_nil_r|exact S1'|].
  { intros zs u Hin. apply (Hd zs u), in_app_iff. now right. }
  rewrite E2 in E3. apply val_inj in E3. subst s2'. intros q Hq. destruct (proj2 (inv_all _ _ _ _ _ S3) q Hq) as (ts & w & A1 & (_ & A2) & A3). exists ts, w. auto.
Qed.
End Lmb.
