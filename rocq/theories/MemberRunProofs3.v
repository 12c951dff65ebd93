(** Runs of the CB-MeMBer filter. *)
From Coq Require Import ZArith QArith Qcanon List Bool Arith Lia.
From Verif Require Import Base ListUtil QcLra ParticleModel RbRunModel PermanentSpec PermanentProofs RfsModel RfsSpec RfsProofs
  LmbModel LmbSpec MemberModel MemberSpec MemberProofs MemberProofs3 TrackRunModel TrackRunSpec TrackRunProofs TrackRunProofs2 VpProofs4
  MemberRunModel MemberRunSpec MemberRunProofs MemberRunProofs2.
Import ListNotations.
Local Open Scope Qc_scope.

(** ** Tracks of unused measurements that come last *)
Section Tail.
Context {A : Type}.
Variables holds zero : A -> bool.
Lemma firstn_upd : forall (l : list A) n i a, (n <= i)%nat -> firstn n (upd l i a) = firstn n l.
Proof.
  induction l as [|b l IH]; intros n i a H; [destruct i; reflexivity|]. destruct n; [reflexivity|]. destruct i; [lia|]. cbn [upd firstn]. f_equal. apply IH. lia.
Qed.
Lemma skip_used : forall nM nZ (W1 R : list A) k zs ts us, length ts = (nM + nZ)%nat -> skipn (nM + k) ts = W1 ++ R -> Forall (fun x => zero x = false) W1 ->
  zs = seq k (nZ - k) -> (k + length W1 <= nZ)%nat ->
  squeeze_loop holds zero ts nM nZ zs us = squeeze_loop holds zero ts nM nZ (seq (k + length W1) (nZ - (k + length W1))) us.
Proof.
  intros nM nZ W1 R. induction W1 as [|a W1 IH]; intros k zs ts us L E H Ez Hk.
  - cbn [length]. rewrite Nat.add_0_r. now subst zs.
  - cbn [length] in *. assert (nZ - k = S (nZ - S k))%nat as E2 by lia. rewrite E2 in Ez. cbn [seq] in Ez. subst zs. cbn [squeeze_loop].
    assert (N : nth_error ts (nM + k) = Some a).
    { rewrite <- (firstn_skipn (nM + k) ts), nth_error_app2; rewrite firstn_length; [|lia]. replace (nM + k - Nat.min (nM + k) (length ts))%nat with 0%nat by lia. now rewrite E. }
    rewrite N. cbn [of_option obind]. inversion H; subst. rewrite H2.
    replace (k + S (length W1))%nat with (S k + length W1)%nat by lia. apply IH; auto; [|lia].
    replace (nM + S k)%nat with (1 + (nM + k))%nat by lia. clear - E. revert E. generalize (nM + k)%nat. intros n. revert n. induction ts as [|b ts IHt]; intros [|n] E; cbn [skipn] in *; try discriminate.
    + now injection E as _ ->.
    + now apply IHt.
Qed.
Lemma tail_unused : forall nM nZ m k ts us, length ts = (nM + nZ)%nat -> (m <= k)%nat -> (k <= nZ)%nat -> length us = (k - m)%nat ->
  Forall (fun x => zero x = true /\ holds x = false) (skipn (nM + m) ts) ->
  exists ts', squeeze_loop holds zero ts nM nZ (seq k (nZ - k)) us = Val (ts', us ++ seq k (nZ - k)) /\ firstn (nM + m) ts' = firstn (nM + m) ts /\ length ts' = length ts.
Proof.
  intros nM nZ m k. remember (nZ - k)%nat as n eqn:En. revert k En. induction n as [|n IH]; intros k En ts us L Hm Hk Hu H; cbn [seq squeeze_loop].
  { exists ts. now rewrite app_nil_r. }
  assert (S0 : forall j x, (nM + m <= j)%nat -> nth_error ts j = Some x -> zero x = true /\ holds x = false).
  { intros j x Hj Ex. rewrite Forall_forall in H. apply H. rewrite <- (firstn_skipn (nM + m) ts) in Ex. rewrite nth_error_app2 in Ex; rewrite firstn_length in *; [|lia].
    eapply nth_error_In. exact Ex. }
  destruct (nth_error ts (nM + k)) as [x|] eqn:Ex; [|apply nth_error_None in Ex; lia]. cbn [of_option obind]. destruct (S0 (nM + k)%nat x) as [Zx Hx]; [lia|exact Ex|]. rewrite Zx.
  unfold move. destruct (Nat.le_gt_cases (nM + m) (nM + nZ - 1 - length us)) as [C|C].
  2:{ exfalso. lia. }
  destruct (nth_error ts (nM + nZ - 1 - length us)) as [y|] eqn:Ey; [|apply nth_error_None in Ey; lia]. rewrite Ex. cbn [of_option obind].
  destruct (S0 _ y C Ey) as [Zy Hy]. rewrite Hy, andb_false_r. cbn [obind].
  destruct (IH (S k)) with (ts := upd ts (nM + k) y) (us := us ++ [k]) as (ts' & E1 & E2 & E3).
  - lia.
  - now rewrite upd_length.
  - lia.
  - lia.
  - rewrite app_length. cbn [length]. lia.
  - apply Forall_forall. intros v Hv. apply In_nth_error in Hv as [j Hj].
    assert (V : nth_error (upd ts (nM + k) y) (nM + m + j) = Some v).
    { rewrite <- (firstn_skipn (nM + m) (upd ts (nM + k) y)), nth_error_app2; rewrite firstn_length, upd_length; [|lia].
      replace (nM + m + j - Nat.min (nM + m) (length ts))%nat with j by lia. exact Hj. }
    destruct (Nat.eq_dec (nM + m + j) (nM + k)) as [Q|Q].
    + rewrite Q, nth_error_upd_eq in V by lia. injection V as <-. auto.
    + rewrite nth_error_upd_neq in V by auto. apply (S0 (nM + m + j)%nat); [lia|exact V].
  - exists ts'. rewrite E1, <- app_assoc. split; [reflexivity|]. rewrite E2, E3, upd_length. split; [apply firstn_upd; lia|reflexivity].
Qed.
Lemma squeeze_tail : forall old W1 W2, Forall (fun x => zero x = false) W1 -> Forall (fun x => zero x = true /\ holds x = false) W2 ->
  squeeze holds zero (old ++ W1 ++ W2) (length old) (length W1 + length W2) = Val (old ++ W1, seq (length W1) (length W2)).
Proof.
  intros old W1 W2 H1 H2. unfold squeeze. set (nM := length old). set (nZ := (length W1 + length W2)%nat). set (ts := old ++ W1 ++ W2).
  assert (L : length ts = (nM + nZ)%nat) by (unfold ts, nM, nZ; rewrite !app_length; lia).
  assert (S1 : skipn (nM + 0) ts = W1 ++ W2).
  { rewrite Nat.add_0_r. unfold ts, nM. rewrite skipn_app, skipn_all, Nat.sub_diag. reflexivity. }
  assert (S2 : skipn (nM + length W1) ts = W2).
  { unfold ts, nM. rewrite app_assoc, skipn_app, app_length, Nat.sub_diag, <- app_length, skipn_all. reflexivity. }
  assert (F2 : firstn (nM + length W1) ts = old ++ W1).
  { unfold ts, nM. rewrite app_assoc, firstn_app, app_length, Nat.sub_diag, <- app_length, firstn_all. cbn [firstn]. apply app_nil_r. }
  rewrite (skip_used nM nZ W1 W2 0 (seq 0 nZ) ts []) by first [exact L | exact S1 | exact H1 | now rewrite Nat.sub_0_r | unfold nZ; lia]. cbn [plus].
  destruct (tail_unused nM nZ (length W1) (length W1) ts []) as (ts' & E & F & L'); auto.
  - unfold nZ. lia.
  - cbn. lia.
  - now rewrite S2.
  - rewrite E. cbn [app obind fst snd]. rewrite seq_length. f_equal. replace (nZ - length W1)%nat with (length W2) by (unfold nZ; lia).
    replace (nM + nZ - length W2)%nat with (nM + length W1)%nat by (unfold nZ; lia). now rewrite F, F2.
Qed.
End Tail.

Section Run.
Context {Pose M G : Type}.
Notation tmap := (list (track G)).

Lemma numbers_ok' : forall l : list (@new_track G), Forall (fun n => exists g, n_G n = Some g /\ solid (Track (n_P n) g)) l ->
  exists ts, numbers l = Val ts /\ Forall solid ts.
Proof.
  induction 1 as [|n l (g & E & S) _ (ts & E2 & F)]; cbn [numbers]; [exists []; auto|]. rewrite E, E2. cbn. eexists. split; [reflexivity|]. now constructor.
Qed.

Variable sn : sensor Pose M G.
Variable integral : nat -> Qc.
Variable cf : cconf.
Variable o : outside G.
Hypothesis Hsn : csensor_sound sn integral.
Hypothesis Ho : coutside_sound o.
Hypothesis Hb : 0 < bBirth cf < 1.

Definition goodn (n : @new_track G) : Prop := exists g, n_G n = Some g /\ solid (Track (n_P n) g).
Lemma goodn_zero : forall n, goodn n -> new_zero n = true -> new_holds n = false.
Proof.
  intros n (g & E & (_ & _ & _ & S)) Z. unfold new_zero in Z. destruct (Qc_eq_dec (n_P n) 0) as [C|C]; [|discriminate]. unfold new_holds. rewrite E.
  destruct g as [|a g]; [reflexivity|]. cbn [tG tP] in S. exfalso. specialize (S ltac:(discriminate)). rewrite C in S. revert S. apply Qcle_not_lt, Qcle_refl.
Qed.
Lemma all_goodn : forall zs x (ts : tmap), Forall solid ts ->
  Forall goodn (map as_new (map (old_track (sPd sn x)) ts) ++ map (mk sn zs x ts) (seq 0 (length zs))).
Proof using Hsn.
  intros zs x ts H. apply Forall_app. split.
  - apply Forall_map, Forall_map, Forall_forall. intros t Ht. exists (tG t). split; [reflexivity|].
    exact (old_solid sn integral Hsn zs x ts H t Ht).
  - apply Forall_map, Forall_forall. intros z Hz. apply in_seq in Hz. destruct (mk_solid sn integral Hsn zs x ts H z) as (g & E & S & _); [lia|].
    exists g. auto.
Qed.

Lemma cb_update_ok : forall zs x (ts : tmap), zs <> [] -> Forall solid ts ->
  exists m us w, cb_update sn integral cf o zs x ts = Val (m, us, w) /\ Forall solid m /\ (forall z, In z us -> (z < length zs)%nat) /\ 0 < w.
Proof using Hsn Ho.
  intros zs x ts Hz H. unfold cb_update. change (fun z g => match nth_error zs z with Some y => sCor sn x y g | None => None end) with (corx sn zs x).
  change (fun z => match nth_error zs z with Some y => sClut sn y | None => 0 end) with (clutx sn zs).
  destruct ts as [|t0 ts0] eqn:Et.
  { eexists _, _, _. split; [reflexivity|]. split; [constructor|]. split; [|reflexivity]. intros z Hin. apply in_seq in Hin. lia. }
  rewrite <- Et in *. destruct (loops_val sn integral Hsn zs x ts H) as [E1 E2]. rewrite E1. cbn [obind fst snd]. rewrite E2. cbn [obind].
  destruct (squeeze_ok new_holds new_zero goodn goodn_zero (length ts) (length zs) _ (all_goodn zs x ts H)) as (r & us & E3 & F3 & I3).
  { now rewrite app_length, !map_length, seq_length. }
  rewrite E3. cbn [obind fst snd]. destruct (factor_ok sn integral cf o Hsn Ho zs x ts H Hz) as (w & E4 & P4). cbn zeta in E4. rewrite E4. cbn [obind].
  destruct (numbers_ok' r F3) as (m & E5 & F5). rewrite E5. cbn [obind]. exists m, us, w. auto.
Qed.

Lemma merge_solid : forall ts, Forall solid ts -> Forall solid (mergeGM (oMerge o) ts).
Proof using Ho.
  intros ts H. apply Forall_map, Forall_forall. intros t Ht. rewrite Forall_forall in H. destruct (H t Ht) as (A1 & A2 & A3 & A4).
  destruct (proj2 (proj2 Ho) (tG t) A2) as (M1 & M2 & M3). split; [exact A1|]. cbn [tG tP]. split; [exact M1|]. split; [now rewrite M2|].
  intros N. apply A4. intros C. apply N. rewrite C in M3 |- *. destruct (oMerge o []); [reflexivity|cbn in M3; lia].
Qed.
Lemma prune_fine : forall t : track G, solid t -> bTrack cf <= tP t -> cb_fine cf (Track (tP t) (filter (fun g => negb (Qcltb (fst g) (bGauss cf))) (tG t))).
Proof.
  intros t (A1 & A2 & A3 & A4) Hp. split; [|now left]. split; [exact A1|]. cbn [tG tP]. split; [|split].
  - intros w g Hin. apply filter_In in Hin as [Hin _]. eapply A2. exact Hin.
  - eapply Qcle_trans; [apply filter_sum|exact A3]. intros w g Hin. apply Qclt_le_weak. eapply A2. exact Hin.
  - intros N. apply A4. intros C. rewrite C in N. now apply N.
Qed.

Lemma cb_one_cases : forall zs x (ts : tmap), zs <> [] -> Forall (cb_fine cf) ts ->
  (exists m, cb_one sn integral cf o zs x ts = Val m /\ Forall (cb_fine cf) (mMap m) /\ 0 < mFactor m /\
     forall k pe, In (k, pe) (mBirths m) -> (k < length zs)%nat /\ pe = bBirth cf) \/
  (0 < bTrack cf /\ cb_one sn integral cf o zs x ts = UB UseAfterFree).
Proof using Hsn Ho Hb.
  intros zs x ts Hz H. unfold cb_one. destruct (cb_update_ok zs x ts Hz) as (m & us & w & E & Fm & Iu & Pw).
  { eapply Forall_impl; [|exact H]. now intros t []. }
  rewrite E. cbn [obind fst snd]. set (low := fun t : track G => Qcltb (tP t) (bTrack cf)). set (hs := fun t : track G => negb (Nat.eqb (length (tG t)) 0)).
  assert (Fr : Forall solid (mergeGM (oMerge o) m)) by (now apply merge_solid).
  assert (K : (exists r, drop hs low (mergeGM (oMerge o) m) = Val r /\ Forall solid r /\ Forall (fun t => low t = false) r) \/
    (0 < bTrack cf /\ drop hs low (mergeGM (oMerge o) m) = UB UseAfterFree)).
  { destruct (drop_cases hs low solid _ Fr) as [K|K]; [now left|]. destruct (Qclt_le_dec 0 (bTrack cf)) as [C|C]; [now right|].
    exfalso. rewrite drop_none in K; [discriminate|]. intros t Ht. unfold low. apply Qcltb_false. rewrite Forall_forall in Fr. destruct (Fr t Ht) as ((A & _) & _). qclra. }
  destruct K as [(r & -> & F1 & F2)|[K ->]]; [left|right; split; [exact K|reflexivity]].
  cbn [obind]. eexists. split; [reflexivity|]. cbn [mMap mFactor mBirths]. split; [|split; [exact Pw|]].
  - apply Forall_map, Forall_forall. intros t Ht. rewrite Forall_forall in F1, F2. apply prune_fine; [now apply F1|]. specialize (F2 t Ht). unfold low in F2. now apply Qcltb_false in F2.
  - intros k pe Hin. apply in_map_iff in Hin as (z & Ez & Hin). injection Ez as <- <-. auto.
Qed.
Lemma next_fine : forall stat (ts b : tmap), Forall (cb_fine cf) ts -> Forall (newborn (fun pe => pe = bBirth cf)) b -> Forall (cb_fine cf) (map (still stat) (ts ++ b)).
Proof using Hb.
  intros stat ts b H1 H2.
  assert (K : forall t, cb_fine cf t -> cb_fine cf (still stat t)).
  { intros t ((A1 & A2 & A3 & A4) & A5). split; [|exact A5]. split; [exact A1|]. unfold still. cbn [tG tP]. split; [|split].
    - intros w g Hin. apply in_map_iff in Hin as ([w0 g0] & E & Hin). injection E as <- _. eapply A2. exact Hin.
    - rewrite map_map. cbn [fst]. exact A3.
    - intros N. apply A4. intros C. rewrite C in N. now apply N. }
  apply Forall_map, Forall_app. split; [eapply Forall_impl; [exact K|exact H1]|]. eapply Forall_impl; [|exact H2]. intros t (pe & g & -> & ->). apply K.
  split; [|now right]. destruct Hb as [B1 B2]. split; [split; [now apply Qclt_le_weak|exact B2]|]. cbn [tG tP map fst]. split; [|split; [|auto]].
  - intros w g' [E|[]]. injection E as <- _. reflexivity.
  - rewrite qsum_cons, qsum_nil. qclra.
Qed.

(** The filter with undefined updates replaced by empty maps, to which the general theorem applies. *)
Definition total_one (zs : list M) (x : Pose) (ts : tmap) : outcome (made G) :=
  match cb_one sn integral cf o zs x ts with UB UseAfterFree => Val (Made [] [] 1) | r => r end.
Notation one := (cb_one sn integral cf o).
Lemma one_total : forall zs x ts, one zs x ts = UB UseAfterFree \/ one zs x ts = total_one zs x ts.
Proof. intros zs x ts. unfold total_one. destruct (one zs x ts) as [m|[]|]; auto. Qed.
Lemma upd_total : forall zs l, upd_all one zs l = UB UseAfterFree \/ upd_all one zs l = upd_all total_one zs l.
Proof.
  intros zs. induction l as [|p l IH]; cbn [upd_all]; [now right|]. destruct (pdata p) as [d|]; cbn [of_option obind]; [|now right].
  destruct (one_total zs (ppose p) d) as [E|E]; rewrite E; [now left|]. destruct (total_one zs (ppose p) d) as [m|e|]; cbn [obind]; [|now right|now right].
  destruct IH as [E2|E2]; rewrite E2; [now left|now right].
Qed.
Lemma do_total : forall inv c s k, tdo one inv c s k = UB UseAfterFree \/ tdo one inv c s k = tdo total_one inv c s k.
Proof.
  intros inv c s [mv st|zs u|t]; cbn [tdo]; [now right| |now right]. unfold tupdate. destruct zs as [|z zs]; [now right|].
  destruct (upd_total (z :: zs) (pset (rpf (tRb s)))) as [E|E]; rewrite E; [now left|now right].
Qed.
Lemma run_total : forall inv c ks s, trun one inv c s ks = UB UseAfterFree \/ trun one inv c s ks = trun total_one inv c s ks.
Proof.
  intros inv c. induction ks as [|k ks IH]; intros s; cbn [trun]; [now right|]. destruct (do_total inv c s k) as [E|E]; rewrite E; [now left|].
  destruct (tdo total_one inv c s k) as [s'|e|]; cbn [obind]; [apply IH|now right|now right].
Qed.

Theorem cb_run : forall c n x0 t ks, (0 < n)%nat -> draws_ok ks -> calm false ks ->
  (exists s, trun one (sInv sn) c (tf_new n x0) (TThreshold t :: ks) = Val s /\ length (pset (rpf (tRb s))) = n /\ all_maps (Forall (cb_fine cf)) s) \/
  (0 < bTrack cf /\ trun one (sInv sn) c (tf_new n x0) (TThreshold t :: ks) = UB UseAfterFree).
Proof using Hsn Ho Hb.
  intros c n x0 t ks Hn Hd Hc. destruct (Qclt_le_dec 0 (bTrack cf)) as [C|C].
  - destruct (run_total (sInv sn) c (TThreshold t :: ks) (tf_new n x0)) as [E|E]; [right; auto|left]. rewrite E.
    apply trun_ok with (B := fun pe => pe = bBirth cf); auto; [|apply next_fine].
    intros zs x ts Hz H. unfold total_one. destruct (cb_one_cases zs x ts Hz H) as [(m & E1 & R)|[_ E1]]; rewrite E1; [exists m; auto|].
    eexists. split; [reflexivity|]. cbn [mMap mFactor mBirths]. split; [constructor|]. split; [reflexivity|intros k pe []].
  - left. apply trun_ok with (B := fun pe => pe = bBirth cf); auto; [|apply next_fine].
    intros zs x ts Hz H. destruct (cb_one_cases zs x ts Hz H) as [K|[K _]]; [exact K|]. exfalso. revert K. now apply Qcle_not_lt.
Qed.

(** If the measurements that fit the map come before the others, the update keeps a track for each of them. *)
Theorem cb_keeps : forall zs1 zs2 x (ts : tmap), zs1 ++ zs2 <> [] -> ts <> [] -> Forall solid ts ->
  (forall z, (z < length zs1)%nat -> fits_map sn (zs1 ++ zs2) x ts z) -> (forall z, (length zs1 <= z < length (zs1 ++ zs2))%nat -> ~ fits_map sn (zs1 ++ zs2) x ts z) ->
  exists old new w, cb_update sn integral cf o (zs1 ++ zs2) x ts = Val (old ++ new, seq (length zs1) (length zs2), w) /\
  Forall2 (fun t t' => tG t' = tG t /\ tP t' <= tP t) ts old /\
  length new = length zs1 /\ (forall z t, nth_error new z = Some t -> 0 < tP t < 1 /\ qsum (map fst (tG t)) = 1 /\
    forall g', (exists w, In (w, g') (tG t)) <-> correction_of sn (zs1 ++ zs2) x ts z g').
Proof using Hsn Ho.
  intros zs1 zs2 x ts Hz Hne H F1 F2. set (zs := zs1 ++ zs2) in *. unfold cb_update.
  change (fun z g => match nth_error zs z with Some y => sCor sn x y g | None => None end) with (corx sn zs x).
  change (fun z => match nth_error zs z with Some y => sClut sn y | None => 0 end) with (clutx sn zs).
  destruct ts as [|t0 ts0] eqn:Et; [congruence|]. rewrite <- Et in *. clear Hne.
  destruct (loops_val sn integral Hsn zs x ts H) as [E1 E2]. rewrite E1. cbn [obind fst snd]. rewrite E2. cbn [obind].
  assert (Lz : length zs = (length zs1 + length zs2)%nat) by (unfold zs; apply app_length).
  set (W1 := map (mk sn zs x ts) (seq 0 (length zs1))). set (W2 := map (mk sn zs x ts) (seq (length zs1) (length zs2))).
  assert (EW : map (mk sn zs x ts) (seq 0 (length zs)) = W1 ++ W2) by (rewrite Lz, seq_app, map_app; reflexivity). rewrite EW.
  set (old := map as_new (map (old_track (sPd sn x)) ts)).
  assert (Lo : length ts = length old) by (unfold old; now rewrite !map_length).
  assert (L1 : length W1 = length zs1) by (unfold W1; now rewrite map_length, seq_length).
  assert (L2 : length W2 = length zs2) by (unfold W2; now rewrite map_length, seq_length).
  rewrite Lo. replace (squeeze new_holds new_zero (old ++ W1 ++ W2) (length old) (length zs)) with (squeeze new_holds new_zero (old ++ W1 ++ W2) (length old) (length W1 + length W2)) by (now rewrite L1, L2, Lz).
  rewrite squeeze_tail.
  - cbn [obind fst snd]. destruct (factor_ok sn integral cf o Hsn Ho zs x ts H Hz) as (w & E4 & P4). cbn zeta in E4. rewrite E4. cbn [obind].
    assert (N1 : forall l l' m m', numbers l = Val m -> numbers l' = Val m' -> @numbers G (l ++ l') = Val (m ++ m')).
    { clear. induction l as [|a l IH]; intros l' m m' A B; cbn [numbers app] in *; [injection A as <-; exact B|].
      destruct (n_G a) as [g|]; cbn [of_option obind] in *; [|discriminate]. destruct (numbers l) as [m1|e|]; cbn [obind] in *; try discriminate.
      injection A as <-. now rewrite (IH l' m1 m' eq_refl B). }
    assert (N2 : numbers old = Val (map (old_track (sPd sn x)) ts)).
    { unfold old. clear. induction ts as [|t l IH]; cbn [map numbers]; [reflexivity|]. cbn [as_new n_G of_option obind]. rewrite IH. reflexivity. }
    assert (N3 : exists new, numbers W1 = Val new /\ length new = length W1 /\ forall z t, nth_error new z = Some t -> exists n, nth_error W1 z = Some n /\ n_G n = Some (tG t) /\ tP t = n_P n).
    { assert (K : forall n, In n W1 -> goodn n).
      { intros n Hn. apply in_map_iff in Hn as (z & <- & Hz'). apply in_seq in Hz'. destruct (mk_solid sn integral Hsn zs x ts H z) as (g & E & S & _); [lia|]. exists g. auto. }
      clear - K. induction W1 as [|n W IH]; [exists []; split; [reflexivity|]; split; [reflexivity|]; intros [|z] t; discriminate|].
      destruct (K n (or_introl eq_refl)) as (g & E & _). destruct (IH (fun n' H' => K n' (or_intror H'))) as (new & E2 & L2 & I2).
      cbn [numbers]. rewrite E, E2. cbn. eexists. split; [reflexivity|]. split; [cbn; congruence|]. intros [|z] t Ht; cbn in Ht; [injection Ht as <-; exists n; auto|]. now apply I2. }
    destruct N3 as (new & N3 & Ln & I3). rewrite (N1 old W1 _ _ N2 N3). cbn [obind]. exists (map (old_track (sPd sn x)) ts), new, w. rewrite L1, L2.
    split; [reflexivity|]. split; [|split; [congruence|]].
    + assert (K : forall t, In t ts -> tP (old_track (sPd sn x) t) <= tP t).
      { intros t Ht. apply (old_range (sPd sn x) (corx sn zs x) (clutx sn zs) (length zs) ts); auto; [eapply sensor_okx; eassumption|now apply solids_fair|eapply ts_ne; eassumption]. }
      clear - K. induction ts as [|t l IH]; cbn [map]; constructor; [split; [reflexivity|apply K; now left]|]. apply IH. intros t' Ht'. apply K. now right.
    + intros z t Ht. destruct (I3 z t Ht) as (n & Hn & Eg & Ep). assert (Hlt : (z < length zs1)%nat) by (rewrite <- L1; apply nth_error_Some; congruence).
      unfold W1 in Hn. rewrite nth_error_map, seq_nth_error in Hn. rewrite (proj2 (Nat.ltb_lt _ _) Hlt) in Hn. cbn [option_map plus] in Hn. injection Hn as <-.
      destruct (mk_solid sn integral Hsn zs x ts H z) as (g & E & S & [(_ & Q1 & Q2 & Q3)|(C & _)]); [lia| |destruct (C (F1 z Hlt))].
      assert (g = tG t) by congruence. subst g. rewrite Ep. destruct S as ((_ & S) & _). auto.
  - apply Forall_map, Forall_forall. intros z Hz'. apply in_seq in Hz'. destruct (mk_solid sn integral Hsn zs x ts H z) as (g & E & S & [(_ & Q1 & _)|(C & _)]); [lia| |].
    + unfold new_zero. destruct (Qc_eq_dec _ 0) as [Q|Q]; [|reflexivity]. rewrite Q in Q1. exfalso. revert Q1. apply Qcle_not_lt, Qcle_refl.
    + destruct (C (F1 z ltac:(lia))).
  - apply Forall_map, Forall_forall. intros z Hz'. apply in_seq in Hz'. destruct (mk_solid sn integral Hsn zs x ts H z) as (g & E & S & [(C & _)|(_ & Q1 & Q2)]); [lia| |].
    + destruct (F2 z ltac:(lia) C).
    + split; [unfold new_zero; destruct (Qc_eq_dec _ 0); [reflexivity|contradiction]|]. unfold new_holds. now rewrite E, Q2.
Qed.
End Run.
