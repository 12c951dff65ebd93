(** Numbers of tracks in runs of the LMB and CB-MeMBer filters. *)
From Coq Require Import ZArith QArith Qcanon List Bool Arith Lia.
From Verif Require Import Base ListUtil QcLra Loop ParticleModel RbRunModel RbRunProofs BirthProofs RfsModel LmbModel MemberModel TrackRunModel MemberRunModel ExactModel TrackLifeSpec TrackCountSpec.
Import ListNotations.
Local Open Scope nat_scope.

Lemma move_len : forall {A} holds (ts : list A) s d ts', move holds ts s d = Val ts' -> length ts' = length ts.
Proof.
  intros A holds ts s d ts' H. unfold move in H. destruct (nth_error ts s) as [a|]; [|discriminate]. cbn [of_option obind] in H.
  destruct (nth_error ts d) as [b|]; [|discriminate]. cbn [of_option obind] in H. destruct ((s =? d) && holds a); [discriminate|]. injection H as <-. apply upd_length.
Qed.
Lemma drop_len : forall {A} holds low (ts ts' : list A), drop holds low ts = Val ts' -> length ts' <= length ts.
Proof.
  intros A holds low ts ts' H. unfold drop in H. destruct (drop_loop holds low ts (length ts) 0) as [r| |] eqn:E; try discriminate. cbn [obind] in H. injection H as <-.
  assert (R : length (fst r) = length ts).
  { revert E. generalize 0 as k. generalize (length ts) at 1 as i. intros i. revert ts. induction i as [|i IH]; intros ts k E; cbn [drop_loop] in E; [injection E as <-; reflexivity|].
    destruct (nth_error ts i) as [x|]; [|discriminate]. cbn [of_option obind] in E. destruct (low x); [|exact (IH ts k E)].
    destruct (move holds ts _ i) as [t1| |] eqn:E1; try discriminate. cbn [obind] in E. rewrite (IH t1 _ E). exact (move_len _ _ _ _ _ E1). }
  rewrite firstn_length. lia.
Qed.
Lemma squeeze_len : forall {A} holds zero (ts : list A) nM nZ r, squeeze holds zero ts nM nZ = Val r -> length (fst r) <= nM + nZ - length (snd r) /\ length (snd r) <= nZ.
Proof.
  intros A holds zero ts nM nZ r H. unfold squeeze in H. destruct (squeeze_loop holds zero ts nM nZ (seq 0 nZ) []) as [q| |] eqn:E; try discriminate. cbn [obind] in H. injection H as <-.
  cbn [fst snd]. rewrite firstn_length. split; [lia|].
  assert (R : forall zs ts un q, squeeze_loop holds zero ts nM nZ zs un = Val q -> length (snd q) <= length un + length zs).
  { induction zs as [|z zs IH]; intros t un q0 E0; cbn [squeeze_loop] in E0; [injection E0 as <-; cbn; lia|].
    destruct (nth_error t (nM + z)) as [x|]; [|discriminate]. cbn [of_option obind] in E0. destruct (zero x); [|specialize (IH _ _ _ E0); cbn [length]; lia].
    destruct (move holds t _ (nM + z)) as [t1| |]; try discriminate. cbn [obind] in E0. specialize (IH _ _ _ E0). rewrite app_length in IH. cbn [length] in *. lia. }
  specialize (R _ _ _ _ E). rewrite seq_length in R. exact R.
Qed.

Section Lmb.
Context {G : Type}.
Variable probDet : G -> Qc.
Variable correct : nat -> G -> option (G * Qc).
Variable clutter : nat -> Qc.
Variables thr maxPE minPE expected : Qc.
Variable nZ : nat.
Variable kbest : nat -> nat -> (nat -> nat -> Qc) -> list (list nat).
Lemma block_len : forall vs murty flag il jl st st', lmb_block correct clutter thr nZ kbest vs murty flag il jl st = Val st' -> length (snd st') = length (snd st).
Proof.
  intros vs murty flag il jl st st' H. unfold lmb_block in H. cbv zeta in H. destruct (negb flag || (length jl =? 0)).
  - apply (loop_val _ (fun k s => length (snd s) = length (snd st)) _ _ _ H); [reflexivity|]. intros k [a ts] s' _ Hs E. unfold zero_row in E. cbn [snd] in *.
    destruct (Qc_eq_dec _ 0); [discriminate|]. destruct (nth_error ts _) as [t|]; [|discriminate]. cbn [of_option obind] in E. injection E as <-. cbn [snd]. rewrite upd_length. exact Hs.
  - destruct (if murty then _ else _) as [a1| |]; try discriminate. cbn [obind] in H.
    apply (loop_val _ (fun k s => length (snd s) = length (snd st)) _ _ _ H); [reflexivity|]. intros k [a ts] s' _ Hs E. unfold finish_row in E. cbn [snd] in *.
    destruct (Qc_eq_dec _ 0); [discriminate|]. destruct (nth_error ts _) as [t|]; [|discriminate]. cbn [of_option obind] in E. destruct (normalize _) as [gs| |]; try discriminate.
    cbn [obind] in E. injection E as <-. cbn [snd]. rewrite upd_length. exact Hs.
Qed.
Lemma blocks_len : forall vs ps g st l r, lmb_blocks correct clutter thr nZ kbest vs g ps st l = Val r -> length (snd (fst r)) = length (snd st).
Proof.
  intros vs. induction ps as [|p ps IH]; intros g st l r H; cbn [lmb_blocks] in H; [injection H as <-; reflexivity|].
  destruct (PartitionModel.getPartitionSize g p) as [[[nR nC] fl]| |]; try discriminate. cbn [obind] in H.
  destruct (PartitionModel.getPartition g p _) as [got| |]; try discriminate. cbn [obind] in H.
  destruct (lmb_block _ _ _ _ _ _ _ _ _ _ _) as [st1| |] eqn:E; try discriminate. cbn [obind] in H. rewrite (IH _ _ _ _ H). exact (block_len _ _ _ _ _ _ _ E).
Qed.
Lemma births_len : forall (vs : list (view G)) a, length (births maxPE minPE nZ vs a) <= nZ.
Proof.
  intros vs a. unfold births. rewrite <- (seq_length nZ 0) at 2. induction (seq 0 nZ) as [|z l IH]; [reflexivity|]. cbn [flat_map]. rewrite app_length. cbn [length].
  destruct (Qcltb _ _); cbn [length]; lia.
Qed.
Lemma lmb_len : forall cc ncc ts out, lmb_update probDet correct clutter thr maxPE minPE expected nZ kbest cc ncc ts = Val out ->
  length (lTracks out) = length ts /\ length (lBirths out) <= nZ.
Proof.
  intros cc ncc ts out H. unfold lmb_update in H. destruct ts as [|t ts]; [injection H as <-; cbn; rewrite map_length, seq_length; lia|]. cbv zeta in H.
  destruct (no_clutter _ _ _ _); [discriminate|]. destruct (PartitionModel.partition _ _ _) as [r| |]; try discriminate. cbn [obind] in H.
  destruct (lmb_blocks _ _ _ _ _ _ _ _ _ _) as [s| |] eqn:E; try discriminate. cbn [obind] in H. injection H as <-. cbn [lTracks lBirths].
  split; [exact (blocks_len _ _ _ _ _ _ E)|apply births_len].
Qed.
End Lmb.
Lemma numbers_len : forall {G} (l : list (@new_track G)) m, numbers l = Val m -> length m = length l.
Proof.
  intros G. induction l as [|t l IH]; intros m H; cbn [numbers] in H; [injection H as <-; reflexivity|]. destruct (n_G t) as [g|]; [|discriminate]. cbn [of_option obind] in H.
  destruct (numbers l) as [r| |]; try discriminate. cbn [obind] in H. injection H as <-. cbn [length]. f_equal. exact (IH r eq_refl).
Qed.

(** ** Runs *)
Section Run.
Context {Pose M G : Type}.
Notation tmap := (list (track G)).
Notation part := (particle Pose tmap).
(** Tracks and births an update leaves; [a] tracks per measurement. *)
Definition one_few (a : nat) (one : list M -> Pose -> tmap -> outcome (made G)) : Prop :=
  forall zs x ts m, one zs x ts = Val m -> length (mMap m) <= length ts + a * length zs /\ length (mBirths m) <= length zs.
Lemma exact_few : forall (sn : sensor Pose M G) cf o, one_few 0 (lmb_exact sn cf o).
Proof.
  intros sn cf o zs x ts m H. unfold lmb_exact, lmb_raw in H. cbv zeta in H. destruct (lmb_update _ _ _ _ _ _ _ _ _ _ _ _) as [out| |] eqn:E; try discriminate. cbn [obind] in H.
  destruct (drop _ _ _) as [l| |] eqn:Ed; try discriminate. cbn [obind] in H. injection H as <-. cbn [mMap mBirths]. destruct (lmb_len _ _ _ _ _ _ _ _ _ _ _ _ _ E) as [E1 E2].
  split; [|exact E2]. unfold pruneGM. rewrite map_length. apply drop_len in Ed. unfold mergeGM in Ed. rewrite map_length in Ed. lia.
Qed.
Lemma cb_few : forall (sn : sensor Pose M G) integral cf o zs x ts m, cb_one sn integral cf o zs x ts = Val m ->
  length (mMap m) + length (mBirths m) <= length ts + length zs /\ length (mBirths m) <= length zs.
Proof.
  intros sn integral cf o zs x ts m H. unfold cb_one in H. destruct (cb_update sn integral cf o zs x ts) as [v| |] eqn:E; try discriminate. cbn [obind] in H.
  destruct (drop _ _ _) as [l| |] eqn:Ed; try discriminate. cbn [obind] in H. injection H as <-. cbn [mMap mBirths]. unfold pruneGM. rewrite !map_length. apply drop_len in Ed. unfold mergeGM in Ed. rewrite map_length in Ed.
  assert (Q : length (fst (fst v)) + length (snd (fst v)) <= length ts + length zs /\ length (snd (fst v)) <= length zs).
  { unfold cb_update in E. cbv zeta in E. destruct ts as [|t ts]; [injection E as <-; cbn; rewrite seq_length; lia|].
    destruct (legacies (sPd sn x) (t :: ts)) as [q| |]; try discriminate. cbn [obind] in E. destruct (all_meas _ _ _ _) as [ms| |]; try discriminate. cbn [obind] in E.
    destruct (squeeze _ _ _ _ _) as [r| |] eqn:Er; try discriminate. cbn [obind] in E. destruct (rfs_likelihood _ _ _ _ _ _ _ _ _ _) as [w| |]; try discriminate. cbn [obind] in E.
    destruct (numbers (fst r)) as [k| |] eqn:En; try discriminate. cbn [obind] in E. injection E as <-. cbn [fst snd]. apply numbers_len in En. apply squeeze_len in Er. lia. }
  lia.
Qed.
Lemma cb_few1 : forall (sn : sensor Pose M G) integral cf o, one_few 1 (cb_one sn integral cf o).
Proof. intros sn integral cf o zs x ts m H. apply cb_few in H. lia. Qed.

Variable a : nat.
Variable one : list M -> Pose -> tmap -> outcome (made G).
Hypothesis Hone : one_few a one.
Variable inv : Pose -> M -> G.
Definition few (K : nat) (p : part) : Prop := forall ts, pdata p = Some ts -> length ts <= K.
Definition ninv (K L : nat) (s : tfilt Pose M G) : Prop := Forall (few K) (pset (rpf (tRb s))) /\ Forall (fun u => length u <= L) (tSlots s).
Lemma nupd : forall zs K (l : list part) l' us, Forall (few K) l -> upd_all one zs l = Val (l', us) -> Forall (few (K + a * length zs)) l' /\ Forall (fun u => length u <= length zs) us.
Proof.
  intros zs K. induction l as [|p l IH]; intros l' us Hl H; cbn [upd_all] in H; [injection H as <- <-; split; constructor|]. inversion Hl as [|? ? H1 H2]; subst.
  destruct (pdata p) as [d|] eqn:Ed; [|discriminate]. cbn [of_option obind] in H. destruct (one zs (ppose p) d) as [m| |] eqn:Em; try discriminate. cbn [obind] in H.
  destruct (upd_all one zs l) as [[l1 u1]| |] eqn:E; try discriminate. cbn [obind fst snd] in H. injection H as <- <-. destruct (IH l1 u1 H2 eq_refl) as [I1 I2].
  destruct (Hone _ _ _ _ Em) as [O1 O2]. split; constructor; auto. intros ts Hm. cbn in Hm. injection Hm as <-. specialize (H1 d Ed). lia.
Qed.
Lemma nnorm : forall K (l : list part), Forall (few K) l -> Forall (few K) (normalizeWeights l).
Proof.
  intros K l H. rewrite Forall_forall in *. intros q Hq. apply In_nth_error in Hq as [i Hi]. destruct (norm_same _ _ _ Hi) as (p & Hp & _ & _ & Hd).
  intros ts Hm. apply (H p (nth_error_In _ _ Hp)). congruence.
Qed.
Lemma nfinish : forall K c u (s s' : rbf Pose tmap), finish c u s = Val s' -> Forall (few K) (pset (rpf s)) -> Forall (few K) (pset (rpf s')).
Proof.
  intros K c u s s' H Hl. destruct (finish_cases _ _ _ _ H) as [(_ & _ & _ & _ & Er)|(_ & _ & _ & _ & l & Hm & ->)].
  - rewrite Forall_forall in *. intros q Hq. apply In_nth_error in Hq as [i Hi]. destruct (resample_src _ _ _ _ _ Er i q Hi) as (_ & j & p & Hp & _ & _ & Hd).
    intros ts Em. apply (Hl p (nth_error_In _ _ Hp)). congruence.
  - cbn [pset]. apply nnorm. destruct Hm as [->| ->]; [exact Hl|now apply nnorm].
Qed.
Lemma born_len : forall zs x us b, born inv zs x us = Val b -> length b = length us.
Proof.
  intros zs x. induction us as [|[k pe] us IH]; intros b H; cbn [born] in H; [injection H as <-; reflexivity|].
  destruct (nth_error zs k) as [z|]; [|discriminate]. cbn [of_option obind] in H. destruct (born inv zs x us) as [l| |]; try discriminate. cbn [obind] in H. injection H as <-.
  cbn [length]. f_equal. exact (IH l eq_refl).
Qed.
Lemma npred : forall K L move stat keep zs (l : list part) us i l', Forall (few K) l -> Forall (fun u => length u <= L) us ->
  pred_all inv move stat keep zs i l us = Val l' -> Forall (few (K + L)) l'.
Proof.
  intros K L move stat keep zs. induction l as [|p l IH]; intros us i l' Hl Hu H; cbn [pred_all] in H; [injection H as <-; constructor|].
  destruct us as [|u us]; [discriminate|]. inversion Hl as [|? ? H1 H2]; subst. inversion Hu as [|? ? H3 H4]; subst.
  destruct (born inv zs (ppose p) (rev u)) as [b| |] eqn:Eb; try discriminate. cbn [obind] in H.
  destruct (pdata p) as [d|] eqn:Ed; [|discriminate]. cbn [of_option obind] in H. destruct (pred_all inv move stat keep zs (S i) l us) as [r| |] eqn:E; try discriminate.
  cbn [obind] in H. injection H as <-. constructor; [|exact (IH us (S i) r H2 H4 E)]. intros ts Hm. cbn in Hm. injection Hm as <-.
  rewrite map_length, app_length. apply born_len in Eb. rewrite rev_length in Eb. specialize (H1 d Ed). lia.
Qed.
Lemma ndo : forall c K L s k s', ninv K L s -> tdo one inv c s k = Val s' -> exists K' L', ninv K' L' s' /\ K' + L' <= K + L + (1 + a) * told [k].
Proof.
  intros c K L s k s' [C1 C2] H. destruct k as [move stat|zs u|t]; cbn [tdo] in H.
  - unfold tpredict in H. destruct (pred_all _ _ _ _ _ _ _ _) as [l| |] eqn:E; try discriminate. cbn [obind] in H. injection H as <-. exists (K + L), 0. split; [|cbn; lia].
    split; [exact (npred _ _ _ _ _ _ _ _ _ _ C1 C2 E)|]. apply Forall_map, Forall_forall. intros. cbn. lia.
  - unfold tupdate in H. destruct zs as [|z zs]; [injection H as <-; exists K, L; split; [split; assumption|cbn; lia]|].
    destruct (upd_all one (z :: zs) _) as [[l us]| |] eqn:E; try discriminate. cbn [obind fst snd] in H. destruct (finish c u _) as [b| |] eqn:Ef; try discriminate. cbn [obind] in H. injection H as <-.
    destruct (nupd _ _ _ _ _ C1 E) as [D1 D2]. exists (K + a * length (z :: zs)), (length (z :: zs)). split.
    + split; cbn [tRb tSlots]; [exact (nfinish _ _ _ _ _ Ef D1)|exact D2].
    + cbn [told]. rewrite Nat.add_0_r. nia.
  - injection H as <-. exists K, L. split; [split; assumption|cbn; lia].
Qed.
Lemma told_cons : forall (k : tcall Pose M G) ks, told (k :: ks) = told [k] + told ks.
Proof. intros [move stat|zs u|t] ks; cbn; lia. Qed.
Lemma nrun : forall c ks K L s s', ninv K L s -> trun one inv c s ks = Val s' -> exists K' L', ninv K' L' s' /\ K' + L' <= K + L + (1 + a) * told ks.
Proof.
  intros c. induction ks as [|k ks IH]; intros K L s s' S0 H; cbn [trun] in H; [injection H as <-; exists K, L; split; [exact S0|cbn; lia]|].
  destruct (tdo one inv c s k) as [s1| |] eqn:E; try discriminate. cbn [obind] in H. destruct (ndo _ _ _ _ _ _ S0 E) as (K1 & L1 & S1 & B1).
  destruct (IH K1 L1 s1 s' S1 H) as (K' & L' & S' & B'). exists K', L'. split; [exact S'|]. rewrite told_cons. nia.
Qed.
Theorem track_count : forall c n x0 ks s, trun one inv c (tf_new n x0) ks = Val s ->
  forall p ts, In p (pset (rpf (tRb s))) -> pdata p = Some ts -> length ts <= (1 + a) * told ks.
Proof.
  intros c n x0 ks s H p ts Hp Ep. destruct (nrun c ks 0 0 (tf_new n x0) s) as (K & L & [S1 _] & B); [|exact H|].
  - split; cbn.
    + apply Forall_forall. intros q Hq. apply in_map_iff in Hq as (q' & <- & _). intros m Hm. cbn in Hm. injection Hm as <-. cbn. lia.
    + apply Forall_forall. intros u Hu. apply repeat_spec in Hu. subst. cbn. lia.
  - rewrite Forall_forall in S1. specialize (S1 p Hp ts Ep). lia.
Qed.
End Run.

(** ** CB-MeMBer with one particle: no mixing of slots *)
Section Single.
Context {Pose M G : Type}.
Variable sn : sensor Pose M G.
Variable integral : nat -> Qc.
Variable cf : cconf.
Variable o : outside G.
Notation one := (cb_one sn integral cf o).
(** Without resampling every particle keeps its own births. *)
Definition pairfew (B : nat) (p : particle Pose (list (track G))) (u : list (nat * Qc)) : Prop := forall ts, pdata p = Some ts -> length ts + length u <= B.
Definition sinv (B : nat) (s : tfilt Pose M G) : Prop := Forall2 (pairfew B) (pset (rpf (tRb s))) (tSlots s).
Lemma supd : forall B zs l us0 l' us, Forall2 (pairfew B) l us0 -> upd_all one zs l = Val (l', us) -> Forall2 (pairfew (B + length zs)) l' us.
Proof.
  intros B zs. induction l as [|p l IH]; intros us0 l' us Hl H; cbn [upd_all] in H; [injection H as <- <-; constructor|]. inversion Hl as [|? u0 ? us1 H1 H2]; subst.
  destruct (pdata p) as [d|] eqn:Ed; [|discriminate]. cbn [of_option obind] in H. destruct (one zs (ppose p) d) as [m| |] eqn:Em; try discriminate. cbn [obind] in H.
  destruct (upd_all one zs l) as [[l1 u1]| |] eqn:E; try discriminate. cbn [obind fst snd] in H. injection H as <- <-. constructor; [|exact (IH us1 l1 u1 H2 eq_refl)].
  intros ts Hm. cbn in Hm. injection Hm as <-. apply cb_few in Em. specialize (H1 d Ed). lia.
Qed.
Lemma snorm : forall B (l : list (particle Pose (list (track G)))) us, Forall2 (pairfew B) l us -> Forall2 (pairfew B) (normalizeWeights l) us.
Proof.
  intros B l us H.
  assert (K : forall l1 l2 us, length l1 = length l2 -> (forall i q, nth_error l2 i = Some q -> exists p : particle Pose (list (track G)), nth_error l1 i = Some p /\ pdata q = pdata p) ->
    Forall2 (pairfew B) l1 us -> Forall2 (pairfew B) l2 us).
  { clear. induction l1 as [|p l1 IH]; intros [|q l2] us E Hn H; try discriminate; [exact H|]. inversion H as [|? u ? us' H1 H2]; subst. constructor.
    - destruct (Hn 0 q eq_refl) as (p' & Ep & Ed). injection Ep as <-. intros ts Hq. apply H1. congruence.
    - apply IH; [cbn in E; lia|intros i r Hr; exact (Hn (S i) r Hr)|exact H2]. }
  apply (K l); [unfold normalizeWeights; now rewrite ?map_length| |exact H]. intros i q Hq. destruct (norm_same _ _ _ Hq) as (p & Hp & _ & _ & Hd). exists p. split; assumption.
Qed.
Lemma sborn : forall B move stat keep zs l us i l', Forall2 (pairfew B) l us -> pred_all (sInv sn) move stat keep zs i l us = Val l' ->
  Forall2 (pairfew B) l' (map (fun _ => []) us).
Proof.
  intros B move stat keep zs. induction l as [|p l IH]; intros us i l' Hl H; cbn [pred_all] in H; [injection H as <-; inversion Hl; constructor|]. inversion Hl as [|? u ? us1 H1 H2]; subst.
  destruct (born (sInv sn) zs (ppose p) (rev u)) as [b| |] eqn:Eb; try discriminate. cbn [obind] in H.
  destruct (pdata p) as [d|] eqn:Ed; [|discriminate]. cbn [of_option obind] in H. destruct (pred_all (sInv sn) move stat keep zs (S i) l us1) as [r| |] eqn:E; try discriminate.
  cbn [obind] in H. injection H as <-. cbn [map]. constructor; [|exact (IH us1 (S i) r H2 E)]. intros ts Hm. cbn in Hm. injection Hm as <-.
  rewrite map_length, app_length. apply born_len in Eb. rewrite rev_length in Eb. specialize (H1 d Ed). cbn. lia.
Qed.
Lemma sfinish : forall B c u (s s' : rbf Pose (list (track G))) us, finish c u s = Val s' -> rocc s' <> Some true -> Forall2 (pairfew B) (pset (rpf s)) us -> Forall2 (pairfew B) (pset (rpf s')) us.
Proof.
  intros B c u s s' us H Hno Hl. destruct (finish_cases _ _ _ _ H) as [(E & _)|(_ & _ & _ & _ & l & Hm & ->)]; [contradiction|].
  cbn [pset]. apply snorm. destruct Hm as [->| ->]; [exact Hl|now apply snorm].
Qed.
Lemma srun : forall c ks B s s', sinv B s -> trun one (sInv sn) c s ks = Val s' -> Forall (fun e => snd e = false) (tlog one (sInv sn) c s ks) -> sinv (B + told ks) s'.
Proof.
  intros c. induction ks as [|k ks IH]; intros B s s' S0 H Hno; cbn [trun] in H; [injection H as <-; cbn [told]; rewrite Nat.add_0_r; exact S0|].
  cbn [tlog] in Hno. destruct (tdo one (sInv sn) c s k) as [s1| |] eqn:E; try discriminate. cbn [obind] in H. inversion Hno as [|? ? Hk Hno']; subst. cbn [snd] in Hk.
  assert (S1 : sinv (B + told [k]) s1).
  { destruct k as [move stat|zs u|t]; cbn [tdo] in E.
    - unfold tpredict in E. destruct (pred_all _ _ _ _ _ _ _ _) as [l| |] eqn:El; try discriminate. cbn [obind] in E. injection E as <-. cbn [told]. rewrite Nat.add_0_r. exact (sborn _ _ _ _ _ _ _ _ _ S0 El).
    - unfold tupdate in E. destruct zs as [|z zs]; [injection E as <-; cbn [told length Nat.add]; rewrite Nat.add_0_r; exact S0|].
      destruct (upd_all one (z :: zs) _) as [[l us]| |] eqn:El; try discriminate. cbn [obind fst snd] in E. destruct (finish c u _) as [b| |] eqn:Ef; try discriminate. cbn [obind] in E. injection E as <-.
      cbn [told]. rewrite Nat.add_0_r. unfold sinv. cbn [tRb tSlots]. apply (sfinish _ _ _ _ _ _ Ef).
      + cbn [tresampled tRb] in Hk. intros Q. rewrite Q in Hk. discriminate.
      + exact (supd _ _ _ _ _ _ S0 El).
    - injection E as <-. cbn [told]. rewrite Nat.add_0_r. exact S0. }
  rewrite told_cons, Nat.add_assoc. exact (IH _ _ _ S1 H Hno').
Qed.
Theorem cb_count : forall c n x0 ks s, trun one (sInv sn) c (tf_new n x0) ks = Val s -> Forall (fun e => snd e = false) (tlog one (sInv sn) c (tf_new n x0) ks) ->
  forall p ts, In p (pset (rpf (tRb s))) -> pdata p = Some ts -> length ts <= told ks.
Proof.
  intros c n x0 ks s H Hno p ts Hp Ep. assert (S : sinv (0 + told ks) s).
  { apply (srun c ks 0 (tf_new n x0) s); [|exact H|exact Hno]. unfold sinv.
    assert (K : forall (l : list (particle Pose (list (track G)))), (forall q, In q l -> pdata q = Some []) -> Forall2 (pairfew 0) l (repeat [] (length l))).
    { induction l as [|q l IHl]; intros Hq; [constructor|]. cbn [length repeat]. constructor; [|apply IHl; intros; apply Hq; right; assumption].
      intros m Hm. rewrite (Hq q (or_introl eq_refl)) in Hm. injection Hm as <-. cbn. lia. }
    specialize (K (pset (rpf (tRb (tf_new n x0 : tfilt Pose M G))))).
    assert (L : length (pset (rpf (tRb (tf_new n x0 : tfilt Pose M G)))) = n) by (cbn; rewrite ?map_length, ?seq_length; reflexivity). rewrite L in K. apply K. intros q Hq. apply in_map_iff in Hq as (q' & <- & _). reflexivity. }
  assert (Q : forall (l : list (particle Pose (list (track G)))) us B, Forall2 (pairfew B) l us -> In p l -> length ts <= B).
  { clear - Ep. intros l us B F. induction F as [|q u l us H1 F IHF]; intros Hi; [contradiction|]. destruct Hi as [->|Hi]; [|exact (IHF Hi)]. specialize (H1 ts Ep). lia. }
  exact (Q _ _ _ S Hp).
Qed.
End Single.
