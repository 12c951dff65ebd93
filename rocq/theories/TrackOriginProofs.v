(** Where the Gaussians of the track-based filters come from. *)
From Coq Require Import ZArith QArith Qcanon List Bool Arith Lia.
From Verif Require Import Base ListUtil QcLra Loop ParticleModel RbRunModel RbRunProofs BirthProofs RfsModel LmbModel MemberModel TrackRunModel MemberRunModel ExactModel TrackOriginSpec.
Import ListNotations.
Local Open Scope nat_scope.

Section Tracks.
Context {G : Type}.
Variable P : G -> Prop.
Notation tmap := (list (track G)).
Definition gsP (gs : list (Qc * G)) : Prop := Forall (fun g => P (snd g)) gs.
Definition trP (t : track G) : Prop := gsP (tG t).

Lemma merge_P : forall merge (ts : tmap), (forall mix, gsP mix -> gsP (merge mix)) -> Forall trP ts -> Forall trP (mergeGM merge ts).
Proof. intros merge ts Hm H. unfold mergeGM. apply Forall_map. eapply Forall_impl; [|exact H]. intros t Ht. apply Hm. exact Ht. Qed.
Lemma prune_P : forall t (ts : tmap), Forall trP ts -> Forall trP (pruneGM t ts).
Proof.
  intros t ts H. unfold pruneGM. apply Forall_map. eapply Forall_impl; [|exact H]. intros x Hx. unfold trP, gsP in *. cbn [tG].
  rewrite Forall_forall in *. intros g Hg. apply filter_In in Hg as [Hg _]. apply Hx. exact Hg.
Qed.
Lemma cleanup_P : forall merge tT gT (ts : tmap), (forall mix, gsP mix -> gsP (merge mix)) -> Forall trP ts -> Forall trP (cleanup merge tT gT ts).
Proof.
  intros merge tT gT ts Hm H. apply prune_P. apply (merge_P _ _ Hm) in H. rewrite Forall_forall in *. intros x Hx. apply filter_In in Hx as [Hx _]. apply H. exact Hx.
Qed.

(** ** Moves *)
Lemma move_all : forall {A} (Q : A -> Prop) holds (ts : list A) s d ts', move holds ts s d = Val ts' -> Forall Q ts -> Forall Q ts'.
Proof.
  intros A Q holds ts s d ts' H Ht. unfold move in H. destruct (nth_error ts s) as [a|] eqn:Ea; [|discriminate]. cbn [of_option obind] in H.
  destruct (nth_error ts d) as [b|]; [|discriminate]. cbn [of_option obind] in H. destruct ((s =? d) && holds a); [discriminate|]. injection H as <-.
  rewrite Forall_forall in *. intros x Hx. apply upd_in in Hx. destruct Hx as [->|Hx]; [|apply Ht; exact Hx]. apply Ht. exact (nth_error_In _ _ Ea).
Qed.
Lemma drop_all : forall {A} (Q : A -> Prop) holds low (ts ts' : list A), drop holds low ts = Val ts' -> Forall Q ts -> Forall Q ts'.
Proof.
  intros A Q holds low ts ts' H Ht. unfold drop in H. destruct (drop_loop holds low ts (length ts) 0) as [r| |] eqn:E; try discriminate. cbn [obind] in H. injection H as <-.
  assert (R : Forall Q (fst r)).
  { revert E. generalize 0 as k. generalize (length ts) as i. intros i. revert ts Ht. induction i as [|i IH]; intros ts Ht k E; cbn [drop_loop] in E; [injection E as <-; exact Ht|].
    destruct (nth_error ts i) as [x|]; [|discriminate]. cbn [of_option obind] in E. destruct (low x); [|exact (IH ts Ht k E)].
    destruct (move holds ts _ i) as [t1| |] eqn:E1; try discriminate. cbn [obind] in E. exact (IH t1 (move_all Q _ _ _ _ _ E1 Ht) _ E). }
  rewrite Forall_forall in *. intros x Hx. apply R. rewrite <- (firstn_skipn (length (fst r) - snd r)). apply in_app_iff. left. exact Hx.
Qed.
Lemma squeeze_all : forall {A} (Q : A -> Prop) holds zero (ts : list A) nM nZ r, squeeze holds zero ts nM nZ = Val r -> Forall Q ts -> Forall Q (fst r).
Proof.
  intros A Q holds zero ts nM nZ r H Ht. unfold squeeze in H. destruct (squeeze_loop holds zero ts nM nZ (seq 0 nZ) []) as [q| |] eqn:E; try discriminate. cbn [obind] in H. injection H as <-.
  cbn [fst]. assert (R : Forall Q (fst q)).
  { revert E. generalize (@nil nat) as un. generalize (seq 0 nZ) as zs. intros zs. revert ts Ht. induction zs as [|z zs IH]; intros ts Ht un E; cbn [squeeze_loop] in E; [injection E as <-; exact Ht|].
    destruct (nth_error ts (nM + z)) as [x|]; [|discriminate]. cbn [of_option obind] in E. destruct (zero x); [|exact (IH ts Ht un E)].
    destruct (move holds ts _ (nM + z)) as [t1| |] eqn:E1; try discriminate. cbn [obind] in E. exact (IH t1 (move_all Q _ _ _ _ _ E1 Ht) _ E). }
  rewrite Forall_forall in *. intros x Hx. apply R. rewrite <- (firstn_skipn (nM + nZ - length (snd q))). apply in_app_iff. left. exact Hx.
Qed.

(** ** Map update of the LMB filter *)
Section Lmb.
Variable probDet : G -> Qc.
Variable correct : nat -> G -> option (G * Qc).
Variable clutter : nat -> Qc.
Hypothesis Hcor : forall z g g' lik, P g -> correct z g = Some (g', lik) -> P g'.
Lemma view_P : forall ts m, Forall trP ts -> Forall (fun v => trP (vT v)) (in_view probDet m ts).
Proof.
  induction ts as [|t ts IH]; intros m H; [constructor|]. inversion H as [|? ? H1 H2]; subst. cbn [in_view]. destruct (Qcltb 0 (track_pd probDet t)); [constructor|]; auto.
Qed.
Lemma at_P : forall vs i, Forall (fun v => trP (vT v)) vs -> trP (vT (at_ vs i : view G)).
Proof.
  intros vs i H. unfold at_. destruct (Nat.lt_ge_cases i (length vs)) as [Hi|Hi].
  - rewrite Forall_forall in H. apply H. apply nth_In. exact Hi.
  - rewrite nth_overflow by exact Hi. constructor.
Qed.
Lemma mixture_P : forall v z, trP (vT v) -> gsP (mixture correct clutter v z).
Proof.
  intros v z H. unfold gsP, mixture. apply Forall_forall. intros g Hg. apply in_flat_map in Hg as (h & Hh & Hg). unfold trP, gsP in H. rewrite Forall_forall in H. specialize (H h Hh).
  destruct (correct z (snd h)) as [[g' lik]|] eqn:E; [|contradiction]. destruct Hg as [<-|[]]. exact (Hcor _ _ _ _ H E).
Qed.
Lemma multiply_P : forall w gs, gsP gs -> gsP (multiply w gs).
Proof. intros w gs H. unfold gsP, multiply. apply Forall_map. exact H. Qed.
Lemma normalize_P : forall gs gs', normalize gs = Val gs' -> gsP gs -> gsP gs'.
Proof.
  intros gs gs' H Hg. unfold normalize in H. destruct gs as [|g gs]; [injection H as <-; constructor|]. cbv zeta in H. destruct (Qc_eq_dec _ 0); [discriminate|]. injection H as <-.
  unfold gsP. apply (proj2 (Forall_map (fun g : Qc * G => ((fst g / _)%Qc, snd g)) _ (g :: gs))). exact Hg.
Qed.
Variables thr maxPE minPE expected : Qc.
Variable nZ : nat.
Variable kbest : nat -> nat -> (nat -> nat -> Qc) -> list (list nat).
Section Vs.
Variable vs : list (view G).
Hypothesis Hvs : Forall (fun v => trP (vT v)) vs.
Lemma put_P : forall (ts : tmap) k t, Forall trP ts -> trP t -> Forall trP (upd ts k t).
Proof. intros ts k t H Ht. rewrite Forall_forall in *. intros x Hx. apply upd_in in Hx. destruct Hx as [->|Hx]; [exact Ht|apply H; exact Hx]. Qed.
Lemma finish_P : forall il jl r st st', finish_row correct clutter nZ vs il jl r st = Val st' -> Forall trP (snd st) -> Forall trP (snd st').
Proof.
  intros il jl r [a ts] st' H Ht. unfold finish_row in H. cbn [snd] in *. destruct (Qc_eq_dec (pl a) 0); [discriminate|].
  destruct (nth_error ts _) as [t|] eqn:Et; [|discriminate]. cbn [of_option obind] in H. destruct (normalize _) as [gs| |] eqn:En; try discriminate. cbn [obind] in H. injection H as <-.
  cbn [snd]. apply put_P; [exact Ht|]. unfold trP. cbn [tG]. apply (normalize_P _ _ En). apply Forall_app. split.
  - apply multiply_P. rewrite Forall_forall in Ht. exact (Ht t (nth_error_In _ _ Et)).
  - apply Forall_forall. intros g Hg. apply in_flat_map in Hg as (c & _ & Hg).
    assert (Q := multiply_P (mw a (nth r il 0) c) _ (mixture_P _ c (at_P vs (nth r il 0) Hvs))). unfold gsP in Q. rewrite Forall_forall in Q. exact (Q g Hg).
Qed.
Lemma zero_P : forall il r st st', zero_row vs il r st = Val st' -> Forall trP (snd st) -> Forall trP (snd st').
Proof.
  intros il r [a ts] st' H Ht. unfold zero_row in H. cbn [snd] in *. destruct (Qc_eq_dec _ 0); [discriminate|].
  destruct (nth_error ts _) as [t|] eqn:Et; [|discriminate]. cbn [of_option obind] in H. injection H as <-. cbn [snd]. apply put_P; [exact Ht|].
  rewrite Forall_forall in Ht. exact (Ht t (nth_error_In _ _ Et)).
Qed.
Lemma block_P : forall murty flag il jl st st', lmb_block correct clutter thr nZ kbest vs murty flag il jl st = Val st' -> Forall trP (snd st) -> Forall trP (snd st').
Proof.
  intros murty flag il jl st st' H Ht. unfold lmb_block in H. cbv zeta in H. destruct (negb flag || (length jl =? 0)).
  - apply (loop_val _ (fun k s => Forall trP (snd s)) _ _ _ H); [exact Ht|]. intros k s s' _ Hs E. exact (zero_P _ _ _ _ E Hs).
  - destruct (if murty then _ else _) as [a1| |]; try discriminate. cbn [obind] in H.
    apply (loop_val _ (fun k s => Forall trP (snd s)) _ _ _ H); [exact Ht|]. intros k s s' _ Hs E. exact (finish_P _ _ _ _ _ E Hs).
Qed.
Lemma blocks_P : forall ps g st l r, lmb_blocks correct clutter thr nZ kbest vs g ps st l = Val r -> Forall trP (snd st) -> Forall trP (snd (fst r)).
Proof.
  induction ps as [|p ps IH]; intros g st l r H Ht; cbn [lmb_blocks] in H; [injection H as <-; exact Ht|].
  destruct (PartitionModel.getPartitionSize g p) as [[[nR nC] fl]| |]; try discriminate. cbn [obind] in H.
  destruct (PartitionModel.getPartition g p _) as [got| |]; try discriminate. cbn [obind] in H.
  destruct (lmb_block _ _ _ _ _ _ _ _ _ _ _) as [st1| |] eqn:E; try discriminate. cbn [obind] in H. exact (IH _ _ _ _ H (block_P _ _ _ _ _ _ E Ht)).
Qed.
End Vs.
Lemma lmb_P : forall cc ncc ts out, lmb_update probDet correct clutter thr maxPE minPE expected nZ kbest cc ncc ts = Val out -> Forall trP ts -> Forall trP (lTracks out).
Proof.
  intros cc ncc ts out H Ht. unfold lmb_update in H. destruct ts as [|t ts]; [injection H as <-; constructor|]. cbv zeta in H.
  destruct (no_clutter _ _ _ _); [discriminate|]. destruct (PartitionModel.partition _ _ _) as [r| |]; try discriminate. cbn [obind] in H.
  destruct (lmb_blocks _ _ _ _ _ _ _ _ _ _) as [s| |] eqn:E; try discriminate. cbn [obind] in H. injection H as <-. cbn [lTracks].
  exact (blocks_P _ (view_P (t :: ts) 0 Ht) _ _ _ _ _ E Ht).
Qed.

(** ** Map update of the CB-MeMBer filter *)
Definition seenP (s : @seen_track G) : Prop := gsP (s_g s).
Definition newP (t : @new_track G) : Prop := match n_G t with Some gs => gsP gs | None => True end.
Lemma legacies_P : forall ts q, legacies probDet ts = Val q -> Forall trP ts -> Forall trP (fst q) /\ Forall seenP (snd q).
Proof.
  induction ts as [|t ts IH]; intros q H Ht; cbn [legacies] in H; [injection H as <-; split; constructor|]. inversion Ht as [|? ? H1 H2]; subst.
  destruct (legacy probDet t) as [t'| |] eqn:E; try discriminate. cbn [obind] in H. destruct (legacies probDet ts) as [r| |]; try discriminate. cbn [obind] in H. injection H as <-.
  destruct (IH r eq_refl H2) as [I1 I2]. cbn [fst snd]. unfold legacy in E. destruct (Qc_eq_dec _ 0); [discriminate|]. injection E as <-.
  split; [constructor; assumption|]. destruct (Qcltb 0 (cb_pd probDet t)); [constructor; assumption|exact I2].
Qed.
Lemma gauss_P : forall s z gs st, gsP gs -> Forall (fun g => P (snd g)) (snd st) -> Forall (fun g => P (snd g)) (snd (fold_left (one_gauss correct s z) gs st)).
Proof.
  intros s z. induction gs as [|g gs IH]; intros st Hg Hs; [exact Hs|]. inversion Hg as [|? ? H1 H2]; subst. cbn [fold_left]. apply IH; [exact H2|].
  unfold one_gauss. destruct (correct z (snd g)) as [[g' lik]|] eqn:E; [|exact Hs]. cbn [snd]. apply Forall_app. split; [exact Hs|]. constructor; [exact (Hcor _ _ _ _ H1 E)|constructor].
Qed.
Lemma tracks_P : forall z vs a, Forall seenP vs -> Forall (fun g => P (snd g)) (m_gs a) -> Forall (fun g => P (snd g)) (m_gs (fold_left (one_track correct z) vs a)).
Proof.
  intros z. induction vs as [|v vs IH]; intros a Hv Ha; [exact Ha|]. inversion Hv as [|? ? H1 H2]; subst. cbn [fold_left]. apply IH; [exact H2|]. unfold one_track. cbn [m_gs].
  apply gauss_P; [exact H1|exact Ha].
Qed.
Lemma finite_P : forall gs l, finite gs = Some l -> Forall (fun g : option Qc * G => P (snd g)) gs -> gsP l.
Proof.
  induction gs as [|[[w|] g] gs IH]; intros l H Hg; cbn [finite] in H; [injection H as <-; constructor| |discriminate]. inversion Hg as [|? ? H1 H2]; subst.
  destruct (finite gs) as [r|]; [|discriminate]. injection H as <-. constructor; [exact H1|exact (IH r eq_refl H2)].
Qed.
Lemma norm_P : forall gs l, norm_weights gs = Some l -> Forall (fun g : option Qc * G => P (snd g)) gs -> gsP l.
Proof.
  intros gs l H Hg. unfold norm_weights in H. destruct (finite gs) as [r|] eqn:E; [|discriminate]. apply (finite_P _ _ E) in Hg. cbv zeta in H.
  destruct r as [|g r]; [injection H as <-; constructor|]. destruct (Qc_eq_dec _ 0); [discriminate|]. injection H as <-.
  unfold gsP. apply (proj2 (Forall_map (fun g : Qc * G => ((fst g / _)%Qc, snd g)) _ (g :: r))). exact Hg.
Qed.
Lemma meas_P : forall vs zs l, all_meas correct clutter vs zs = Val l -> Forall seenP vs -> Forall newP l.
Proof.
  intros vs. induction zs as [|z zs IH]; intros l H Hv; cbn [all_meas] in H; [injection H as <-; constructor|].
  destruct (one_meas correct clutter vs z) as [t| |] eqn:E; try discriminate. cbn [obind] in H. destruct (all_meas correct clutter vs zs) as [r| |]; try discriminate. cbn [obind] in H. injection H as <-.
  constructor; [|exact (IH r eq_refl Hv)]. unfold one_meas in E. cbv zeta in E. destruct (Qc_eq_dec _ 0); [discriminate|]. injection E as <-. unfold newP. cbn [n_G].
  destruct (norm_weights _) as [gs|] eqn:En; [|exact I]. apply (norm_P _ _ En). apply tracks_P; [exact Hv|constructor].
Qed.
Lemma numbers_P : forall l m, numbers l = Val m -> Forall newP l -> Forall trP m.
Proof.
  induction l as [|t l IH]; intros m H Hl; cbn [numbers] in H; [injection H as <-; constructor|]. inversion Hl as [|? ? H1 H2]; subst. unfold newP in H1.
  destruct (n_G t) as [g|]; [|discriminate]. cbn [of_option obind] in H. destruct (numbers l) as [r| |]; try discriminate. cbn [obind] in H. injection H as <-.
  constructor; [exact H1|exact (IH r eq_refl H2)].
Qed.
End Lmb.
End Tracks.

(** ** Runs *)
Section Run.
Context {Pose M G : Type}.
Variable sn : sensor Pose M G.
Variable o : outside G.
Variable all : list (tcall Pose M G).
Notation from := (tfrom sn o all).
Notation tmap := (list (track G)).
Notation part := (particle Pose tmap).
Lemma merge_from : forall mix, gsP from mix -> gsP from (oMerge o mix).
Proof.
  intros mix H. unfold gsP in *. rewrite Forall_forall in *. intros [w g] Hg. cbn. apply (tfrom_merge sn o all mix g w); [|exact Hg]. intros v h Hh. exact (H (v, h) Hh).
Qed.
Lemma cor_from : forall zs u x, In (TUpdate zs u) all -> forall z g g' lik, from g ->
  match nth_error zs z with Some y => sCor sn x y g | None => None end = Some (g', lik) -> from g'.
Proof.
  intros zs u x Hz z g g' lik Hg H. destruct (nth_error zs z) as [y|] eqn:E; [|discriminate]. apply (tfrom_correct sn o all x g y g' lik Hg); [|exact H].
  exists zs, u. split; [exact Hz|exact (nth_error_In _ _ E)].
Qed.
Definition one_sound (one : list M -> Pose -> tmap -> outcome (made G)) : Prop :=
  forall zs u x ts m, In (TUpdate zs u) all -> one zs x ts = Val m -> Forall (trP from) ts -> Forall (trP from) (mMap m).
Lemma lmb_sound : forall cf, one_sound (lmb_one sn cf o).
Proof.
  intros cf zs u x ts m Hz H Ht. unfold lmb_one in H. cbv zeta in H. destruct (lmb_update _ _ _ _ _ _ _ _ _ _ _ _) as [out| |] eqn:E; try discriminate. cbn [obind] in H. injection H as <-.
  cbn [mMap]. apply cleanup_P; [exact merge_from|]. exact (lmb_P from _ _ _ (cor_from zs u x Hz) _ _ _ _ _ _ _ _ _ _ E Ht).
Qed.
Lemma exact_sound : forall cf, one_sound (lmb_exact sn cf o).
Proof.
  intros cf zs u x ts m Hz H Ht. unfold lmb_exact, lmb_raw in H. cbv zeta in H. destruct (lmb_update _ _ _ _ _ _ _ _ _ _ _ _) as [out| |] eqn:E; try discriminate. cbn [obind] in H.
  destruct (drop _ _ _) as [l| |] eqn:Ed; try discriminate. cbn [obind] in H. injection H as <-. cbn [mMap]. apply prune_P. apply (drop_all _ _ _ _ _ Ed). apply (merge_P _ _ _ merge_from).
  exact (lmb_P from _ _ _ (cor_from zs u x Hz) _ _ _ _ _ _ _ _ _ _ E Ht).
Qed.
Lemma cb_sound : forall integral cf, one_sound (cb_one sn integral cf o).
Proof.
  intros integral cf zs u x ts m Hz H Ht. unfold cb_one in H. destruct (cb_update sn integral cf o zs x ts) as [v| |] eqn:E; try discriminate. cbn [obind] in H.
  destruct (drop _ _ _) as [l| |] eqn:Ed; try discriminate. cbn [obind] in H. injection H as <-. cbn [mMap]. apply prune_P. apply (drop_all _ _ _ _ _ Ed). apply (merge_P _ _ _ merge_from).
  unfold cb_update in E. cbv zeta in E. destruct ts as [|t ts]; [injection E as <-; constructor|].
  destruct (legacies (sPd sn x) (t :: ts)) as [q| |] eqn:Eq; try discriminate. cbn [obind] in E. destruct (all_meas _ _ _ _) as [ms| |] eqn:Em; try discriminate. cbn [obind] in E.
  destruct (squeeze _ _ _ _ _) as [r| |] eqn:Er; try discriminate. cbn [obind] in E. destruct (rfs_likelihood _ _ _ _ _ _ _ _ _ _) as [w| |]; try discriminate. cbn [obind] in E.
  destruct (numbers (fst r)) as [k| |] eqn:En; try discriminate. cbn [obind] in E. injection E as <-. cbn [fst].
  destruct (legacies_P from _ _ _ Eq Ht) as [Q1 Q2]. apply (numbers_P from _ _ En). apply (squeeze_all _ _ _ _ _ _ _ Er). apply Forall_app. split.
  - apply Forall_map. exact Q1.
  - exact (meas_P from _ _ (cor_from zs u x Hz) _ _ _ Em Q2).
Qed.

Variable one : list M -> Pose -> tmap -> outcome (made G).
Hypothesis Hone : one_sound one.
Definition ptfrom (p : part) : Prop := forall ts, pdata p = Some ts -> Forall (trP from) ts.
Definition tinv (s : tfilt Pose M G) : Prop := Forall ptfrom (pset (rpf (tRb s))) /\ Forall (heard_of all) (tZ s).
Lemma tupd_from : forall zs u (l : list part) l' us, In (TUpdate zs u) all -> Forall ptfrom l -> upd_all one zs l = Val (l', us) -> Forall ptfrom l'.
Proof.
  intros zs u. induction l as [|p l IH]; intros l' us Hz Hl H; cbn [upd_all] in H; [injection H as <- _; constructor|]. inversion Hl as [|? ? H1 H2]; subst.
  destruct (pdata p) as [d|] eqn:Ed; [|discriminate]. cbn [of_option obind] in H. destruct (one zs (ppose p) d) as [m| |] eqn:Em; try discriminate. cbn [obind] in H.
  destruct (upd_all one zs l) as [[l1 u1]| |] eqn:E; try discriminate. cbn [obind fst snd] in H. injection H as <- _. constructor; [|exact (IH l1 u1 Hz H2 eq_refl)].
  intros ts Hm. cbn in Hm. injection Hm as <-. exact (Hone zs u _ _ _ Hz Em (H1 d Ed)).
Qed.
Lemma tnorm_from : forall (l : list part), Forall ptfrom l -> Forall ptfrom (normalizeWeights l).
Proof.
  intros l H. rewrite Forall_forall in *. intros q Hq. apply In_nth_error in Hq as [i Hi]. destruct (norm_same _ _ _ Hi) as (p & Hp & _ & _ & Hd).
  intros ts Hm. apply (H p (nth_error_In _ _ Hp)). congruence.
Qed.
Lemma tfinish_from : forall c u (s s' : rbf Pose tmap), finish c u s = Val s' -> Forall ptfrom (pset (rpf s)) -> Forall ptfrom (pset (rpf s')).
Proof.
  intros c u s s' H Hl. destruct (finish_cases _ _ _ _ H) as [(_ & _ & _ & _ & Er)|(_ & _ & _ & _ & l & Hm & ->)].
  - rewrite Forall_forall in *. intros q Hq. apply In_nth_error in Hq as [i Hi]. destruct (resample_src _ _ _ _ _ Er i q Hi) as (_ & j & p & Hp & _ & _ & Hd).
    intros ts Em. apply (Hl p (nth_error_In _ _ Hp)). congruence.
  - cbn [pset]. apply tnorm_from. destruct Hm as [->| ->]; [exact Hl|now apply tnorm_from].
Qed.
Lemma born_from : forall zs x us b, Forall (heard_of all) zs -> born (sInv sn) zs x us = Val b -> Forall (trP from) b.
Proof.
  intros zs x. induction us as [|[k pe] us IH]; intros b Hz H; cbn [born] in H; [injection H as <-; constructor|].
  destruct (nth_error zs k) as [z|] eqn:Ez; [|discriminate]. cbn [of_option obind] in H. destruct (born (sInv sn) zs x us) as [l| |]; try discriminate. cbn [obind] in H. injection H as <-.
  constructor; [|exact (IH l Hz eq_refl)]. constructor; [|constructor]. cbn. apply tfrom_inverse. rewrite Forall_forall in Hz. apply Hz. exact (nth_error_In _ _ Ez).
Qed.
Lemma tpred_from : forall move stat keep zs (l : list part) us i l', In (TPredict move stat) all -> Forall (heard_of all) zs -> Forall ptfrom l ->
  pred_all (sInv sn) move stat keep zs i l us = Val l' -> Forall ptfrom l'.
Proof.
  intros move stat keep zs. induction l as [|p l IH]; intros us i l' Hk Hz Hl H; cbn [pred_all] in H; [injection H as <-; constructor|].
  destruct us as [|u us]; [discriminate|]. inversion Hl as [|? ? H1 H2]; subst. destruct (born (sInv sn) zs (ppose p) (rev u)) as [b| |] eqn:Eb; try discriminate. cbn [obind] in H.
  destruct (pdata p) as [d|] eqn:Ed; [|discriminate]. cbn [of_option obind] in H. destruct (pred_all (sInv sn) move stat keep zs (S i) l us) as [r| |] eqn:E; try discriminate.
  cbn [obind] in H. injection H as <-. constructor; [|exact (IH us (S i) r Hk Hz H2 E)]. intros ts Hm. cbn in Hm. injection Hm as <-. apply Forall_map.
  assert (Q : Forall (trP from) (d ++ b)) by (apply Forall_app; split; [exact (H1 d Ed)|exact (born_from _ _ _ _ Hz Eb)]).
  eapply Forall_impl; [|exact Q]. intros t Ht. unfold trP, still, gsP in *. cbn [tG]. apply Forall_map. eapply Forall_impl; [|exact Ht]. intros g Hg. cbn.
  exact (tfrom_motion sn o all (snd g) move stat Hg Hk).
Qed.
Lemma tdo_from : forall c s k s', In k all -> tinv s -> tdo one (sInv sn) c s k = Val s' -> tinv s'.
Proof.
  intros c s k s' Hk [C1 C2] H. destruct k as [move stat|zs u|t]; cbn [tdo] in H.
  - unfold tpredict in H. destruct (pred_all _ _ _ _ _ _ _ _) as [l| |] eqn:E; try discriminate. cbn [obind] in H. injection H as <-.
    split; [exact (tpred_from _ _ _ _ _ _ _ _ Hk C2 C1 E)|exact C2].
  - unfold tupdate in H. destruct zs as [|z zs]; [injection H as <-; split; [exact C1|constructor]|].
    destruct (upd_all one (z :: zs) _) as [[l us]| |] eqn:E; try discriminate. cbn [obind fst snd] in H. destruct (finish c u _) as [b| |] eqn:Ef; try discriminate. cbn [obind] in H. injection H as <-.
    split; cbn [tRb tZ].
    + apply (tfinish_from _ _ _ _ Ef). exact (tupd_from _ _ _ _ _ Hk C1 E).
    + apply Forall_forall. intros y Hy. exists (z :: zs), u. split; [exact Hk|exact Hy].
  - injection H as <-. split; assumption.
Qed.
Lemma trun_from_aux : forall c ks s s', incl ks all -> tinv s -> trun one (sInv sn) c s ks = Val s' -> tinv s'.
Proof.
  intros c. induction ks as [|k ks IH]; intros s s' Hi S0 H; cbn [trun] in H; [injection H as <-; exact S0|].
  destruct (tdo one (sInv sn) c s k) as [s1| |] eqn:E; try discriminate. cbn [obind] in H.
  apply (IH s1 s'); [intros x Hx; apply Hi; right; exact Hx| |exact H]. exact (tdo_from _ _ _ _ (Hi k (or_introl eq_refl)) S0 E).
Qed.
Theorem track_from : forall c n x0 s, trun one (sInv sn) c (tf_new n x0) all = Val s -> all_from sn o all s.
Proof.
  intros c n x0 s H p ts t w g Hp Ep Ht Hg. destruct (trun_from_aux c all (tf_new n x0) s) as [S1 _]; [apply incl_refl| |exact H|].
  - split; cbn; [|constructor]. apply Forall_forall. intros q Hq. apply in_map_iff in Hq as (q' & <- & _). intros m Hm. cbn in Hm. injection Hm as <-. constructor.
  - rewrite Forall_forall in S1. specialize (S1 p Hp ts Ep). rewrite Forall_forall in S1. specialize (S1 t Ht). unfold trP, gsP in S1. rewrite Forall_forall in S1. exact (S1 (w, g) Hg).
Qed.
End Run.

Theorem tfrom_keeps : forall {Pose M G} (sn : sensor Pose M G) o ks (P : G -> Prop),
  (forall x y, heard_of ks y -> P (sInv sn x y)) ->
  (forall x g y g' lik, P g -> heard_of ks y -> sCor sn x y g = Some (g', lik) -> P g') ->
  (forall g move stat, P g -> In (TPredict move stat) ks -> P (stat g)) ->
  (forall mix, (forall v h, In (v, h) mix -> P h) -> forall w g, In (w, g) (oMerge o mix) -> P g) ->
  forall s, all_from sn o ks s -> forall p ts t w g, In p (pset (rpf (tRb s))) -> pdata p = Some ts -> In t ts -> In (w, g) (tG t) -> P g.
Proof.
  intros Pose M G sn o ks P H1 H2 H3 H4 s Hs p ts t w g Hp Ep Ht Hg. specialize (Hs p ts t w g Hp Ep Ht Hg). clear - H1 H2 H3 H4 Hs. revert g Hs.
  fix IH 2. intros g H. destruct H as [x y Hy|x g y g' lik Hl Hy Hc|g move stat Hl Hk|mix g w Hm Hi].
  - apply H1. exact Hy.
  - apply (H2 x g y g' lik); [apply IH; exact Hl|exact Hy|exact Hc].
  - apply (H3 g move stat); [apply IH; exact Hl|exact Hk].
  - refine (H4 mix _ w g Hi). intros v h Hh. apply IH. exact (Hm v h Hh).
Qed.
