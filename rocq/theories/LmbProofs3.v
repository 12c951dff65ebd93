(** The whole map update. *)
From Coq Require Import ZArith List Bool Arith QArith Qcanon Lia Permutation Sorted Relations.
From Verif Require Import Base ListUtil QcLra Loop PermanentSpec PermanentProofs EnumLemmas AssignSpec PartitionModel PartitionSpec PartitionProofs
  LexModel LexSpec LexProofs2 RfsModel RfsSpec RfsProofs RfsProofs2 RfsProofs3 RfsProofs4 LmbModel LmbSpec LmbEvents LmbProofs LmbProofs2.
Import ListNotations.
Local Open Scope Qc_scope.

Lemma connected_ext : forall C C' ml nR nC u v, (forall i j, C i j = C' i j) ->
  connected C ml nR nC u v -> connected C' ml nR nC u v.
Proof.
  intros C C' ml nR nC u v E H. unfold connected in *. induction H as [x y Hl|x|x y H IH|x y z H1 IH1 H2 IH2].
  - apply rst_step. destruct Hl as [i j Hi Hj Hm]. constructor; auto. rewrite <- E. exact Hm.
  - apply rst_refl.
  - apply rst_sym. exact IH.
  - eapply rst_trans; eauto.
Qed.
Lemma components_ext : forall C C' ml nR nC cc ncc, (forall i j, C i j = C' i j) ->
  components_of C ml nR nC cc ncc -> components_of C' ml nR nC cc ncc.
Proof.
  intros C C' ml nR nC cc ncc E (H1 & H2 & H3). split; [exact H1|]. split; [exact H2|].
  intros u v Hu Hv. rewrite (H3 u v Hu Hv). split; apply connected_ext; auto.
Qed.

(** Rows without significant entry and of factor one do not matter. *)
Lemma asum_inert : forall L q cl (P : nat -> bool) rows cols,
  (forall r, In r rows -> P r = false -> q r = 1 /\ forall c, In c cols -> L r c = 0) ->
  asum L q cl (filter P rows) cols = asum L q cl rows cols.
Proof.
  intros L q cl P. induction rows as [|r rs IH]; intros cols H; [reflexivity|]. cbn [filter].
  assert (Hs : forall cols', incl cols' cols -> asum L q cl (filter P rs) cols' = asum L q cl rs cols').
  { intros cols' Hi. apply IH. intros s Hs Hp. destruct (H s (or_intror Hs) Hp) as [A B]. split; [exact A|]. auto. }
  destruct (P r) eqn:E; cbn [asum].
  - rewrite (Hs cols (incl_refl _)). f_equal. apply qsum_ext. intros c Hc. rewrite Hs; [reflexivity|].
    intros x Hx. apply in_remove in Hx. tauto.
  - destruct (H r (or_introl eq_refl) E) as [A B]. rewrite (Hs cols (incl_refl _)), A.
    rewrite qsum_zero; [ring|]. intros c Hc. rewrite (B c Hc). ring.
Qed.

Lemma asum_linear : forall L q cl m x rows cols, NoDup rows -> NoDup cols -> In m rows -> (forall c, In c cols -> L m c = 0) ->
  q m = 1 -> asum L (but q m x) cl rows cols = x * asum L q cl rows cols.
Proof.
  intros L q cl m x rows cols Nr Nc Hm HL Hq.
  rewrite (asum_rows L (but q m x) cl _ _ (remove_perm m rows Nr Hm) cols Nc).
  rewrite (asum_rows L q cl _ _ (remove_perm m rows Nr Hm) cols Nc).
  cbn [asum]. rewrite !qsum_zero by (intros c Hc; rewrite (HL c Hc); ring).
  assert (E : asum L (but q m x) cl (rm m rows) cols = asum L q cl (rm m rows) cols).
  { apply asum_ext; try reflexivity. intros r Hr. unfold but. destruct (Nat.eqb_spec r m) as [->|]; [|reflexivity].
    apply in_remove in Hr. tauto. }
  rewrite E, Hq. unfold but. rewrite Nat.eqb_refl. ring.
Qed.

Lemma qsum_flat2 : forall {X Y} (f : X -> Qc) (g : Y -> list X) l,
  qsum (map f (flat_map g l)) = qsum (map (fun c => qsum (map f (g c))) l).
Proof.
  intros X Y f g. induction l as [|c l IH]; cbn [flat_map map]; [reflexivity|].
  rewrite map_app, qsum_app, IH. reflexivity.
Qed.

Section Whole.
Context {G : Type}.
Variable probDet : G -> Qc.
Variable correct : nat -> G -> option (G * Qc).
Variable clutter : nat -> Qc.
Variable thr : Qc.
Variables maxPE minPE expected : Qc.
Variable nZ : nat.
Variable kbest : nat -> nat -> (nat -> nat -> Qc) -> list (list nat).
Hypothesis Hthr : 0 <= thr.
Hypothesis Hclut : forall z, (z < nZ)%nat -> 0 < clutter z.
Hypothesis Hlik : forall z g g' l, correct z g = Some (g', l) -> 0 <= l.
Hypothesis Hdet : forall g, 0 <= probDet g <= 1.
Hypothesis Hk : kbest_contract kbest.
Notation pd_of := (LmbSpec.pd_of probDet).
Notation pair_weight := (LmbSpec.pair_weight probDet correct clutter thr).
Notation table := (LmbSpec.table probDet correct clutter thr).
Notation visible := (LmbSpec.visible probDet).
Notation detect := (LmbSpec.detect probDet).
Notation rest := (LmbEvents.rest probDet).
Notation missed_of := (LmbEvents.missed_of probDet).

Lemma track_pd_of : forall t : track G, track_pd probDet t = pd_of t.
Proof using. intros t. unfold track_pd, LmbSpec.pd_of. apply (fold_plus0 (fun g => fst g * probDet (snd g))). Qed.

Lemma pd_range : forall t : track G, fair t -> 0 <= pd_of t <= 1.
Proof using Hdet.
  intros t (_ & H1 & H2). unfold LmbSpec.pd_of. split.
  - apply qsum_map_nonneg. intros [w g] Hg. cbn [fst snd]. apply qmul_nonneg; [eapply H1; exact Hg|apply Hdet].
  - refine (Qcle_trans _ _ _ _ H2). apply qsum_le. intros [w g] Hg. cbn [fst snd]. assert (A := H1 w g Hg). destruct (Hdet g) as [B C].
    set (x := probDet g) in *. clearbody x. qcnra.
Qed.

Definition viewed (m : nat) (ts : list (track G)) (v : view G) : Prop :=
  nth_error ts (vI v - m) = Some (vT v) /\ (m <= vI v)%nat /\ vPd v = pd_of (vT v) /\ vPe v = tP (vT v) /\ 0 < vPd v.

Lemma in_view_ok : forall ts m, (forall v, In v (in_view probDet m ts) -> viewed m ts v).
Proof using.
  induction ts as [|t ts IH]; intros m v Hv; cbn [in_view] in Hv; [destruct Hv|].
  assert (R : In v (in_view probDet (S m) ts) -> viewed m (t :: ts) v).
  { intros K. destruct (IH (S m) v K) as (A & B & C). split; [|split; [lia|exact C]].
    replace (vI v - m)%nat with (S (vI v - S m)) by lia. exact A. }
  destruct (Qcltb 0 (track_pd probDet t)) eqn:E; [|auto]. destruct Hv as [<-|Hv]; [|auto].
  unfold viewed. cbn [vI vT vPd vPe]. rewrite Nat.sub_diag, track_pd_of in *. apply Qcltb_true in E. repeat split; auto.
Qed.

Lemma in_view_tracks : forall ts m, map vT (in_view probDet m ts) = visible ts.
Proof using.
  induction ts as [|t ts IH]; intros m; cbn [in_view LmbSpec.visible filter]; [reflexivity|].
  rewrite track_pd_of. destruct (Qcltb 0 (pd_of t)); cbn [map]; rewrite IH; reflexivity.
Qed.

Definition shown (m : nat) (ts : list (track G)) (i : nat) : bool :=
  match nth_error ts (i - m) with Some t => Qcltb 0 (pd_of t) | None => false end.
Lemma in_view_idx : forall ts m, map vI (in_view probDet m ts) = filter (shown m ts) (seq m (length ts)).
Proof using.
  induction ts as [|t ts IH]; intros m; cbn [in_view length seq filter]; [reflexivity|].
  unfold shown at 1. rewrite Nat.sub_diag. cbn [nth_error]. rewrite track_pd_of.
  assert (E : filter (shown m (t :: ts)) (seq (S m) (length ts)) = filter (shown (S m) ts) (seq (S m) (length ts))).
  { apply filter_ext_in. intros i Hi. apply in_seq in Hi. unfold shown.
    replace (i - m)%nat with (S (i - S m)) by lia. reflexivity. }
  rewrite E. destruct (Qcltb 0 (pd_of t)); cbn [map vI]; rewrite IH; reflexivity.
Qed.

Variable ts : list (track G).
Hypothesis Hgood : forall t, In t ts -> fair t /\ pd_of t * tP t < 1.
Notation vs := (in_view probDet 0 ts).
Notation vis := (visible ts).
Notation at_ := (at_ vs).
Notation missed_pd := (missed_pd vs).
Notation lmbL := (lmbL correct clutter thr vs).

Lemma len_vs : length vs = length vis.
Proof using. rewrite <- (in_view_tracks ts 0), map_length. reflexivity. Qed.

Lemma at_view : forall i, (i < length vs)%nat -> viewed 0 ts (at_ i).
Proof using. intros i Hi. apply in_view_ok. apply nth_In. exact Hi. Qed.

Lemma at_track : forall i, (i < length vs)%nat -> nth_error ts (vI (at_ i)) = Some (vT (at_ i)).
Proof using. intros i Hi. destruct (at_view i Hi) as (A & _). rewrite Nat.sub_0_r in A. exact A. Qed.

Lemma vs_fine : forall v, In v vs -> fine v.
Proof using Hgood Hdet.
  intros v Hv. destruct (in_view_ok ts 0 v Hv) as (A & B & C & D & E). apply nth_error_In in A. destruct (Hgood _ A) as [G1 G2].
  unfold fine. rewrite C, D. split; [apply pd_range; exact G1|]. destruct G1 as (G3 & G4 & G5). split; [reflexivity|]. split; [|exact G2]. split; [exact G3|].
  split; [exact G4|]. split; [|exact G5]. apply Qclt_le_trans with (pd_of (vT v)); [rewrite <- C; exact E|]. unfold LmbSpec.pd_of. apply qsum_le.
  intros [w g] Hg. cbn [fst snd]. assert (A' := G4 w g Hg). destruct (Hdet g) as [B' C']. set (x := probDet g) in *. clearbody x. qcnra.
Qed.

Lemma entry_pair : forall i z, (i < length vs)%nat -> entry correct clutter thr (at_ i) z = pair_weight (vT (at_ i)) z.
Proof using.
  intros i z Hi. destruct (at_view i Hi) as (_ & _ & C & D & _). unfold entry, LmbSpec.pair_weight. rewrite fold_plus0.
  assert (E : qsum (map fst (mixture correct clutter (at_ i) z)) * vPe (at_ i) =
    tP (vT (at_ i)) * pd_of (vT (at_ i)) * lik_of correct (vT (at_ i)) z / clutter z).
  { rewrite D, <- C. unfold mixture, lik_of, Qcdiv. rewrite qsum_flat2.
    rewrite (qsum_ext _ (fun g => vPd (at_ i) * / clutter z * match correct z (snd g) with Some (_, l) => l * fst g | None => 0 end)).
    - rewrite qsum_scale. ring.
    - intros [w g] _. cbn [fst snd]. destruct (correct z g) as [[g' l]|]; cbn [map fst]; rewrite ?qsum_cons, ?qsum_nil; ring. }
  rewrite E. reflexivity.
Qed.

Lemma vis_nth : forall i, nth_error vis i = if Nat.ltb i (length vs) then Some (vT (at_ i)) else None.
Proof using.
  intros i. rewrite <- (in_view_tracks ts 0), nth_error_map. destruct (Nat.ltb_spec i (length vs)) as [Hi|Hi].
  - rewrite nth_error_nth' with (d := View 0 (Track 0 []) 0 0) by exact Hi. reflexivity.
  - rewrite (proj2 (nth_error_None vs i) Hi). reflexivity.
Qed.

Lemma L_table : forall i z, lmbL i z = table vis i z.
Proof using.
  intros i z. unfold LmbModel.lmbL, LmbSpec.table. rewrite vis_nth. destruct (Nat.ltb_spec i (length vs)) as [Hi|Hi]; [|reflexivity].
  apply entry_pair. exact Hi.
Qed.
Lemma pd_detect : forall i, missed_pd i = detect vis i.
Proof using.
  intros i. unfold LmbModel.missed_pd, LmbSpec.detect. rewrite vis_nth. destruct (Nat.ltb_spec i (length vs)) as [Hi|Hi].
  - destruct (at_view i Hi) as (_ & _ & C & D & _). rewrite C, D. reflexivity.
  - unfold LmbModel.at_. rewrite nth_overflow by exact Hi. cbn. ring.
Qed.
Lemma sig_support : forall i j, support (table vis) i j = sig lmbL i j.
Proof using. intros i j. unfold support, sig. rewrite L_table. reflexivity. Qed.

Lemma vI_inj : forall i j, (i < length vs)%nat -> (j < length vs)%nat -> vI (at_ i) = vI (at_ j) -> i = j.
Proof using.
  intros i j Hi Hj E. assert (N : NoDup (map vI vs)).
  { rewrite in_view_idx. apply NoDup_filter, seq_NoDup. }
  apply (proj1 (NoDup_nth_error (map vI vs)) N); [rewrite map_length; exact Hi|].
  rewrite !nth_error_map, !(nth_error_nth' vs (View 0 (Track 0 []) 0 0)) by assumption. cbn [option_map]. f_equal. exact E.
Qed.

Lemma idx_rows : filter (shown 0 ts) (seq 0 (length ts)) = map (fun i => vI (at_ i)) (seq 0 (length vs)).
Proof using.
  rewrite <- in_view_idx. apply list_ext. intros n. rewrite !nth_error_map.
  destruct (Nat.lt_ge_cases n (length vs)) as [Hn|Hn].
  - rewrite (nth_error_nth' vs (View 0 (Track 0 []) 0 0)) by exact Hn.
    rewrite (nth_error_nth' (seq 0 (length vs)) 0%nat) by (rewrite seq_length; exact Hn). rewrite seq_nth by exact Hn. reflexivity.
  - rewrite !(proj2 (nth_error_None _ _)); [reflexivity|rewrite seq_length; exact Hn|exact Hn].
Qed.

(** Tracks that cannot be seen. *)
Lemma hidden : forall m, (m < length ts)%nat -> shown 0 ts m = false -> exists t, nth_error ts m = Some t /\ pd_of t = 0 /\
  rest ts m = 1 /\ missed_of ts m = tP t /\ forall z, table ts m z = 0.
Proof using Hgood Hdet Hthr.
  intros m Hm H. unfold shown in H. rewrite Nat.sub_0_r in H. destruct (nth_error ts m) as [t|] eqn:E; [|apply nth_error_None in E; lia].
  assert (Hg := proj1 (Hgood t (nth_error_In _ _ E))). destruct (pd_range t Hg) as [P1 P2].
  assert (Hp : pd_of t = 0).
  { apply Qcle_lt_or_eq in P1. destruct P1 as [P1|P1]; [|congruence]. apply Qcltb_true in P1. congruence. }
  exists t. split; [reflexivity|]. split; [exact Hp|].
  unfold LmbEvents.rest, gone_of, LmbEvents.missed_of, LmbSpec.table. rewrite E, Hp. split; [ring|]. split; [ring|].
  intros z. unfold LmbSpec.pair_weight. rewrite Hp.
  replace (tP t * 0 * lik_of correct t z / clutter z) with 0 by (unfold Qcdiv; ring).
  destruct (Qcltb thr 0) eqn:Et; [|reflexivity]. apply Qcltb_true in Et. exfalso. revert Et. apply Qcle_not_lt. exact Hthr.
Qed.

Lemma table_at : forall i z, (i < length vs)%nat -> table ts (vI (at_ i)) z = lmbL i z.
Proof using.
  intros i z Hi. rewrite L_table. unfold LmbSpec.table. rewrite vis_nth, (at_track i Hi).
  apply Nat.ltb_lt in Hi. rewrite Hi. reflexivity.
Qed.
Lemma rest_at : forall i, (i < length vs)%nat -> rest ts (vI (at_ i)) = q vs i /\ missed_of ts (vI (at_ i)) = miss vs i.
Proof using.
  intros i Hi. destruct (at_view i Hi) as (_ & _ & C & D & _).
  unfold LmbEvents.rest, gone_of, LmbEvents.missed_of, q, miss, LmbModel.missed_pd. rewrite (at_track i Hi), C, D. split; ring.
Qed.

Notation whole f := (asum (table ts) f (fun _ => 1) (seq 0 (length ts)) (seq 0 nZ)).
Notation part f := (asum lmbL f (fun _ => 1) (seq 0 (length vs)) (seq 0 nZ)).

Lemma seq_inj : forall n (x y : nat), In x (seq 0 n) -> In y (seq 0 n) -> (fun c => c) x = (fun c => c) y -> x = y.
Proof using. auto. Qed.

Lemma whole_part : forall f g, (forall m, shown 0 ts m = false -> (m < length ts)%nat -> f m = 1) ->
  (forall i, (i < length vs)%nat -> f (vI (at_ i)) = g i) -> whole f = part g.
Proof using Hgood Hdet Hthr.
  intros f g H1 H2. rewrite <- (asum_inert (table ts) f (fun _ => 1) (shown 0 ts)).
  - rewrite idx_rows. rewrite <- (map_id (seq 0 nZ)) at 1.
    rewrite <- (asum_map (table ts) f (fun _ => 1) (fun i => vI (at_ i)) (fun c => c)); [|auto].
    apply asum_ext; try reflexivity.
    + intros r c Hr _. apply in_seq in Hr. apply table_at. lia.
    + intros r Hr. apply in_seq in Hr. apply H2. lia.
  - intros r Hr Hs. apply in_seq in Hr. destruct (hidden r ltac:(lia) Hs) as (t & _ & _ & _ & _ & Z).
    split; [apply H1; [exact Hs|lia]|]. intros c _. apply Z.
Qed.

Lemma shown_at : forall m, shown 0 ts m = true -> exists i, (i < length vs)%nat /\ vI (at_ i) = m.
Proof using.
  intros m Hm. assert (Hlt : (m < length ts)%nat).
  { unfold shown in Hm. rewrite Nat.sub_0_r in Hm. apply nth_error_Some. destruct (nth_error ts m); discriminate || congruence. }
  assert (K : In m (filter (shown 0 ts) (seq 0 (length ts)))) by (apply filter_In; split; [apply in_seq; lia|exact Hm]).
  rewrite idx_rows in K. apply in_map_iff in K. destruct K as (i & E & Hi). apply in_seq in Hi. exists i. split; [lia|exact E].
Qed.
Lemma at_shown : forall i, (i < length vs)%nat -> shown 0 ts (vI (at_ i)) = true.
Proof using.
  intros i Hi. assert (K : In (vI (at_ i)) (map (fun i => vI (at_ i)) (seq 0 (length vs)))).
  { apply in_map_iff. exists i. split; [reflexivity|apply in_seq; lia]. }
  rewrite <- idx_rows in K. apply filter_In in K. tauto.
Qed.

(** The loop over the partitions. *)
Variable b : nat -> list nat * list nat.
Variable flag : nat -> bool.
Variable np : nat.
Variable g0 : cgen.
Hypothesis HS : forall p, (p < np)%nat -> getPartitionSize g0 p = Val (length (fst (b p)), length (snd (b p)), flag p).
Hypothesis HG : forall p ext, (p < np)%nat -> exists g' a, getPartition g0 p ext = Val (g', Got (Some a) (fst (b p)) (snd (b p)) (flag p)).
Notation sm p := (smallb correct clutter thr vs (flag p) (fst (b p)) (snd (b p))).
Notation bsum f p := (asum lmbL f (fun _ => 1) (fst (b p)) (snd (b p))).
Hypothesis Hstep : forall p st, (p < np)%nat ->
  (forall i, In i (fst (b p)) -> upe (fst st) i = 0 /\ forall z, mw (fst st) i z = 0) ->
  (forall i, In i (fst (b p)) -> nth_error (snd st) (vI (at_ i)) = Some (vT (at_ i))) ->
  exists st', lmb_block correct clutter thr nZ kbest vs (negb ((length (fst (b p)) + length (snd (b p)) <=? 8) || negb (flag p)))
     (flag p) (fst (b p)) (snd (b p)) st = Val st' /\
  stepped correct clutter thr nZ vs (sm p) (fst (b p)) (snd (b p)) st st'.
Hypothesis Hdisj : forall p p' i, (p < np)%nat -> (p' < np)%nat -> In i (fst (b p)) -> In i (fst (b p')) -> p = p'.
Hypothesis Hrange : forall p i, (p < np)%nat -> In i (fst (b p)) -> (i < length vs)%nat.

Lemma blocks_loop : forall ps g st l, like g g0 -> (forall p, In p ps -> (p < np)%nat) -> NoDup ps ->
  (forall p i, In p ps -> In i (fst (b p)) -> upe (fst st) i = 0 /\ (forall z, mw (fst st) i z = 0) /\
     nth_error (snd st) (vI (at_ i)) = Some (vT (at_ i))) ->
  exists st' f, lmb_blocks correct clutter thr nZ kbest vs g ps st l = Val (st', l * qprod (map f ps)) /\
  (forall p i, In p ps -> In i (fst (b p)) -> exists t, nth_error (snd st') (vI (at_ i)) = Some t /\
     row_done correct clutter thr nZ vs (sm p) (fst (b p)) (snd (b p)) i t) /\
  (forall p i z, In p ps -> In i (fst (b p)) -> (z < nZ)%nat -> 0 <= mw (fst st') i z /\ (lmbL i z = 0 -> mw (fst st') i z = 0)) /\
  (forall i, (forall p, In p ps -> ~ In i (fst (b p))) -> upe (fst st') i = upe (fst st) i /\ forall z, mw (fst st') i z = mw (fst st) i z) /\
  (forall j, (forall p i, In p ps -> In i (fst (b p)) -> vI (at_ i) <> j) -> nth_error (snd st') j = nth_error (snd st) j) /\
  length (snd st') = length (snd st) /\
  (forall p, In p ps -> 0 < f p /\ (sm p -> f p = bsum (q vs) p)).
Proof using HS HG Hstep Hdisj Hrange.
  induction ps as [|p ps IH]; intros g st l Hlk Hps N H; cbn [lmb_blocks].
  - exists st, (fun _ => 1). cbn [map]. rewrite qprod_nil. split; [f_equal; f_equal; ring|].
    split; [intros p i []|]. split; [intros p i z []|]. split; [auto|]. split; [auto|]. split; [reflexivity|intros p []].
  - inversion N as [|? ? Np N']; subst. assert (Hp := Hps p (or_introl eq_refl)).
    rewrite (like_size g g0 p Hlk), (HS p Hp). cbn [obind].
    set (m := negb ((length (fst (b p)) + length (snd (b p)) <=? 8) || negb (flag p))).
    destruct (HG p m Hp) as (g' & a & Eg).
    destruct (like_get g g0 p m g' (Some a) _ _ _ Hlk Eg) as (g2 & a2 & E2 & Hlk2).
    rewrite E2. cbn [obind fst snd gflag grows gcols].
    destruct (Hstep p st Hp) as (st1 & Es & S1 & S2 & S3 & S4 & S5 & S6 & S7).
    { intros i Hi. destruct (H p i (or_introl eq_refl) Hi) as (A & B & _). auto. }
    { intros i Hi. apply (H p i (or_introl eq_refl) Hi). }
    fold m in Es. rewrite Es. cbn [obind].
    assert (D : forall p' i, In p' ps -> In i (fst (b p')) -> ~ In i (fst (b p))).
    { intros p' i Hp' Hi K. apply Np. replace p with p'; [exact Hp'|].
      eapply Hdisj; eauto. apply Hps. right. exact Hp'. }
    destruct (IH g2 st1 (l * pl (fst st1)) Hlk2 (fun x Hx => Hps x (or_intror Hx)) N') as (st2 & f & Eb & B1 & B2 & B3 & B4 & B5 & B6).
    { intros p' i Hp' Hi. destruct (H p' i (or_intror Hp') Hi) as (A & B & C).
      destruct (S3 i (D p' i Hp' Hi)) as [S8 S9]. split; [rewrite S8; exact A|]. split; [intros z; rewrite S9; apply B|].
      rewrite S4; [exact C|]. intros k Hk2 E. apply vI_inj in E.
      - subst k. exact (D p' i Hp' Hi Hk2).
      - eapply Hrange; eauto.
      - eapply Hrange; [|exact Hi]. apply Hps. right. exact Hp'. }
    exists st2, (fun x => if Nat.eqb x p then pl (fst st1) else f x).
    assert (Ef : map (fun x => if Nat.eqb x p then pl (fst st1) else f x) ps = map f ps).
    { apply map_ext_in. intros x Hx. destruct (Nat.eqb_spec x p) as [->|]; [contradiction|reflexivity]. }
    split; [|split; [|split; [|split; [|split; [|split]]]]].
    + rewrite Eb. cbn [map]. rewrite Ef, qprod_cons, Nat.eqb_refl. f_equal. f_equal. ring.
    + intros p' i [<-|Hp'] Hi; [|eauto]. destruct (S1 i Hi) as (t & T1 & T2). exists t. split; [|exact T2].
      rewrite B4; [exact T1|]. intros p2 k Hp2 Hk2 E. apply vI_inj in E.
      * subst k. exact (D p2 i Hp2 Hk2 Hi).
      * eapply Hrange; [|exact Hk2]. apply Hps. right. exact Hp2.
      * eapply Hrange; eauto.
    + intros p' i z [<-|Hp'] Hi Hz; [|eauto]. destruct (B3 i) as [_ K].
      { intros p2 Hp2 Hk2. exact (D p2 i Hp2 Hk2 Hi). }
      rewrite K. apply S2; assumption.
    + intros i Hi. destruct (B3 i (fun x Hx => Hi x (or_intror Hx))) as [K1 K2].
      destruct (S3 i (Hi p (or_introl eq_refl))) as [K3 K4]. split; [congruence|]. intros z. rewrite K2. apply K4.
    + intros j Hj. rewrite B4 by (intros p2 k Hp2; apply Hj; right; exact Hp2). apply S4. intros i Hi. apply (Hj p i (or_introl eq_refl) Hi).
    + congruence.
    + intros p' [<-|Hp'].
      * rewrite Nat.eqb_refl. auto.
      * destruct (Nat.eqb_spec p' p) as [->|]; [contradiction|]. auto.
Qed.
End Whole.
