(** Sums over joint events. *)
From Coq Require Import ZArith List Bool Arith QArith Qcanon Lia Permutation.
From Verif Require Import Base ListUtil QcLra PermanentSpec PermanentProofs EnumLemmas RfsSpec RfsProofs RfsProofs2
  LmbModel LmbSpec.
From Verif Require MurtyProofs.
Import ListNotations.
Local Open Scope Qc_scope.

Fixpoint eenum (k : nat) (cols : list nat) : list (list status) :=
  match k with
  | 0%nat => [[]]
  | S k' => map (cons Gone) (eenum k' cols) ++ map (cons Missed) (eenum k' cols) ++
            flat_map (fun c => map (cons (Seen c)) (eenum k' (rm c cols))) cols
  end.

Definition ev (k : nat) (cols : list nat) (e : list status) : Prop :=
  length e = k /\ (forall z, In (Seen z) e -> In z cols) /\
  (forall i j z, nth_error e i = Some (Seen z) -> nth_error e j = Some (Seen z) -> i = j).

Lemma ev_cons0 : forall s k cols e, (forall z, s <> Seen z) -> ev k cols e -> ev (S k) cols (s :: e).
Proof.
  intros s k cols e Hs (H1 & H2 & H3). split; [cbn; congruence|]. split.
  - intros z [Hz|Hz]; [exfalso; apply (Hs z Hz)|auto].
  - intros [|i] [|j] z Hi Hj; cbn in Hi, Hj; [reflexivity| | |f_equal; eauto]; exfalso; apply (Hs z); congruence.
Qed.

Lemma eenum_in : forall k cols e, In e (eenum k cols) <-> ev k cols e.
Proof.
  induction k as [|k IH]; intros cols e; cbn [eenum].
  - split.
    + intros [<-|[]]. split; [reflexivity|]. split; [intros z []|]. intros [|i] j z H; discriminate.
    + intros (Hl & _). destruct e; [left; reflexivity|discriminate].
  - rewrite !in_app_iff, !in_map_iff, in_flat_map. split.
    + intros [(e' & <- & He)|[(e' & <- & He)|(c & Hc & He)]].
      * apply ev_cons0; [discriminate|apply IH; exact He].
      * apply ev_cons0; [discriminate|apply IH; exact He].
      * apply in_map_iff in He. destruct He as (e' & <- & He). apply IH in He. destruct He as (H1 & H2 & H3).
        assert (Nc : ~ In (Seen c) e') by (intros K; apply H2, in_remove in K; tauto).
        split; [cbn; congruence|]. split.
        -- intros z [Hz|Hz]; [injection Hz as <-; exact Hc|]. apply H2, in_remove in Hz. tauto.
        -- intros [|i] [|j] z Hi Hj; cbn in Hi, Hj; [reflexivity| | |f_equal; eauto]; exfalso; apply Nc.
           ++ injection Hi as ->. eapply nth_error_In; eauto.
           ++ injection Hj as ->. eapply nth_error_In; eauto.
    + intros (H1 & H2 & H3). destruct e as [|s e]; [discriminate|]. cbn in H1. injection H1 as H1.
      assert (H3' : forall i j z, nth_error e i = Some (Seen z) -> nth_error e j = Some (Seen z) -> i = j).
      { intros i j z Hi Hj. specialize (H3 (S i) (S j) z Hi Hj). lia. }
      assert (E : ev k cols e).
      { split; [exact H1|]. split; [|exact H3']. intros z Hz. apply H2. right. exact Hz. }
      destruct s as [| |c].
      * left. exists e. split; [reflexivity|apply IH; exact E].
      * right. left. exists e. split; [reflexivity|apply IH; exact E].
      * right. right. exists c. split; [apply H2; left; reflexivity|]. apply in_map. apply IH.
        split; [exact H1|]. split; [|exact H3']. intros z Hz. apply in_in_remove; [|apply H2; right; exact Hz].
        intros ->. apply In_nth_error in Hz. destruct Hz as [j Hj]. specialize (H3 0%nat (S j) c eq_refl Hj). discriminate.
Qed.

Lemma ncm : forall (x : status) l, NoDup l -> NoDup (map (cons x) l).
Proof. intros x l N. apply FinFun.Injective_map_NoDup; [|exact N]. intros a b E. congruence. Qed.

Lemma eenum_nodup : forall k cols, NoDup cols -> NoDup (eenum k cols).
Proof.
  induction k as [|k IH]; intros cols N; cbn [eenum]; [repeat constructor; intros []|].
  assert (F : forall l, NoDup l -> NoDup (flat_map (fun c => map (cons (Seen c)) (eenum k (rm c cols))) l)).
  { induction l as [|c l IHl]; intros Nl; cbn [flat_map]; [constructor|].
    inversion Nl; subst. apply MurtyProofs.NoDup_app_intro; [apply ncm, IH, remove_nodup; exact N|auto|].
    intros h Ha Hb. apply in_map_iff in Ha. destruct Ha as (h1 & <- & _).
    apply in_flat_map in Hb. destruct Hb as (d & Hd & Hb). apply in_map_iff in Hb.
    destruct Hb as (h2 & E & _). injection E as -> _. contradiction. }
  apply MurtyProofs.NoDup_app_intro; [apply ncm, IH, N| |].
  - apply MurtyProofs.NoDup_app_intro; [apply ncm, IH, N|apply F, N|].
    intros h Ha Hb. apply in_map_iff in Ha. destruct Ha as (h1 & <- & _).
    apply in_flat_map in Hb. destruct Hb as (d & Hd & Hb). apply in_map_iff in Hb.
    destruct Hb as (h2 & E & _). discriminate.
  - intros h Ha Hb. apply in_map_iff in Ha. destruct Ha as (h1 & <- & _).
    apply in_app_iff in Hb. destruct Hb as [Hb|Hb].
    + apply in_map_iff in Hb. destruct Hb as (h2 & E & _). discriminate.
    + apply in_flat_map in Hb. destruct Hb as (d & Hd & Hb). apply in_map_iff in Hb.
      destruct Hb as (h2 & E & _). discriminate.
Qed.

Section Weights.
Variable L : nat -> nat -> Qc.
Variables go mi : nat -> Qc.

Definition sw (r : nat) (s : status) : Qc := match s with Gone => go r | Missed => mi r | Seen z => L r z end.
Fixpoint ew (rows : list nat) (e : list status) : Qc :=
  match rows, e with
  | r :: rs, s :: e' => sw r s * ew rs e'
  | _, _ => 1
  end.

Lemma eenum_sum : forall rows cols,
  qsum (map (ew rows) (eenum (length rows) cols)) = asum L (fun r => go r + mi r) (fun _ => 1) rows cols.
Proof.
  induction rows as [|r rs IH]; intros cols; cbn [length eenum asum].
  - cbn [map]. rewrite qsum_cons, qsum_nil. cbn [ew].
    assert (K : qprod (map (fun _ : nat => 1) cols) = 1).
    { induction cols as [|c cols IHc]; cbn [map]; rewrite ?qprod_nil, ?qprod_cons; [reflexivity|]. rewrite IHc. ring. }
    rewrite K. ring.
  - rewrite !map_app, !qsum_app, !map_map. cbn [ew sw].
    rewrite !qsum_scale, !IH, qsum_flat.
    rewrite (qsum_ext (fun c => qsum (map (ew (r :: rs)) (map (cons (Seen c)) (eenum (length rs) (rm c cols)))))
      (fun c => L r c * asum L (fun r => go r + mi r) (fun _ => 1) rs (rm c cols))); [ring|].
    intros c Hc. rewrite map_map. cbn [ew sw]. rewrite qsum_scale, IH. reflexivity.
Qed.
End Weights.

Lemma ew_ext : forall L go mi L' go' mi' rows e,
  (forall r s, In r rows -> sw L go mi r s = sw L' go' mi' r s) -> ew L go mi rows e = ew L' go' mi' rows e.
Proof.
  intros L go mi L' go' mi'. induction rows as [|r rs IH]; intros e H; [reflexivity|].
  destruct e as [|s e]; [reflexivity|]. cbn [ew]. rewrite (H r s (or_introl eq_refl)).
  rewrite IH; [reflexivity|]. intros r0 s0 Hr. apply H. right. exact Hr.
Qed.

Definition but (f : nat -> Qc) (x : nat) (v : Qc) (r : nat) : Qc := if Nat.eqb r x then v else f r.

Lemma ew_alive : forall L go mi rows m x e, NoDup rows -> nth_error rows m = Some x -> length e = length rows ->
  ew L (but go x 0) mi rows e = (if alive m e then ew L go mi rows e else 0).
Proof.
  intros L go mi. induction rows as [|r rs IH]; intros m x e N Hm He; [destruct m; discriminate|].
  destruct e as [|s e]; [discriminate|]. cbn in He. injection He as He. inversion N; subst. cbn [ew].
  destruct m as [|m].
  - cbn in Hm. injection Hm as ->. unfold alive. cbn [nth_error].
    rewrite (ew_ext L (but go x 0) mi L go mi rs e).
    + destruct s; cbn [sw]; try reflexivity. unfold but. rewrite Nat.eqb_refl. ring.
    + intros r0 s0 Hr. destruct s0; cbn [sw]; try reflexivity. unfold but.
      destruct (Nat.eqb_spec r0 x); [subst; contradiction|reflexivity].
  - cbn in Hm. rewrite (IH m x e H2 Hm He).
    assert (Hr : r <> x) by (intros ->; apply H1; eapply nth_error_In; exact Hm).
    assert (Hs : sw L (but go x 0) mi r s = sw L go mi r s).
    { destruct s; cbn [sw]; try reflexivity. unfold but. destruct (Nat.eqb_spec r x); [contradiction|reflexivity]. }
    rewrite Hs. change (alive (S m) (s :: e)) with (alive m e). destruct (alive m e); ring.
Qed.

Lemma qsum_filter_if : forall {X} (f : X -> Qc) (P : X -> bool) l,
  qsum (map f (filter P l)) = qsum (map (fun x => if P x then f x else 0) l).
Proof.
  intros X f P. induction l as [|x l IH]; [reflexivity|]. cbn [filter map]. rewrite qsum_cons, <- IH.
  destruct (P x); cbn [map]; rewrite ?qsum_cons; ring.
Qed.

Lemma alive_sum : forall L go mi rows m x cols, NoDup rows -> nth_error rows m = Some x ->
  qsum (map (ew L go mi rows) (filter (alive m) (eenum (length rows) cols))) =
  asum L (but (fun r => go r + mi r) x (mi x)) (fun _ => 1) rows cols.
Proof.
  intros L go mi rows m x cols N Hm. rewrite qsum_filter_if.
  rewrite (qsum_ext _ (ew L (but go x 0) mi rows)).
  - rewrite eenum_sum. apply asum_ext; try reflexivity. intros r _. unfold but.
    destruct (Nat.eqb_spec r x) as [->|]; ring.
  - intros e He. apply eenum_in in He. symmetry. apply ew_alive; auto. apply He.
Qed.

(** Events in terms of the list of tracks. *)
Section Tracks.
Context {G : Type}.
Variable probDet : G -> Qc.
Variable correct : nat -> G -> option (G * Qc).
Variable clutter : nat -> Qc.
Variable thr : Qc.
Notation pd_of := (pd_of probDet).
Notation event_weight := (event_weight probDet correct clutter thr).
Notation pair_weight := (pair_weight probDet correct clutter thr).
Notation posterior := (posterior probDet correct clutter thr).
Notation evidence := (evidence probDet correct clutter thr).
Notation table := (table probDet correct clutter thr).

Definition gone_of (ts : list (track G)) (m : nat) : Qc := match nth_error ts m with Some t => 1 - tP t | None => 0 end.
Definition missed_of (ts : list (track G)) (m : nat) : Qc :=
  match nth_error ts m with Some t => tP t * (1 - pd_of t) | None => 0 end.

Lemma event_weight_ew : forall pre ts e, length e = length ts ->
  event_weight ts e = ew (table (pre ++ ts)) (gone_of (pre ++ ts)) (missed_of (pre ++ ts)) (seq (length pre) (length ts)) e.
Proof.
  intros pre ts. revert pre. induction ts as [|t ts IH]; intros pre e He; destruct e as [|s e]; try discriminate; [reflexivity|].
  cbn in He. injection He as He. cbn [length seq ew LmbSpec.event_weight].
  assert (K : nth_error (pre ++ t :: ts) (length pre) = Some t).
  { rewrite nth_error_app2, Nat.sub_diag by lia. reflexivity. }
  f_equal.
  - destruct s; cbn [sw status_weight]; unfold gone_of, missed_of, LmbSpec.table; rewrite K; reflexivity.
  - rewrite (IH (pre ++ [t]) e He). rewrite app_length. cbn [length]. rewrite Nat.add_1_r, <- app_assoc. reflexivity.
Qed.

Lemma event_weight_ew0 : forall ts e, length e = length ts ->
  event_weight ts e = ew (table ts) (gone_of ts) (missed_of ts) (seq 0 (length ts)) e.
Proof. intros ts e H. exact (event_weight_ew [] ts e H). Qed.

Lemma event_ev : forall k nZ e, event k nZ e <-> ev k (seq 0 nZ) e.
Proof.
  intros k nZ e. unfold event, ev. split; intros (H1 & H2 & H3); (split; [exact H1|]); (split; [|exact H3]);
  intros z Hz; apply H2 in Hz; [apply in_seq; lia|apply in_seq in Hz; lia].
Qed.

(** Weight of not being seen. *)
Definition rest (ts : list (track G)) (m : nat) : Qc := gone_of ts m + missed_of ts m.

Theorem evidence_iff : forall ts nZ v,
  evidence ts nZ v <-> v = asum (table ts) (rest ts) (fun _ => 1) (seq 0 (length ts)) (seq 0 nZ).
Proof.
  intros ts nZ v.
  assert (S0 : forall es, NoDup es -> (forall e, In e es <-> event (length ts) nZ e) ->
     qsum (map (event_weight ts) es) = asum (table ts) (rest ts) (fun _ => 1) (seq 0 (length ts)) (seq 0 nZ)).
  { intros es N I. unfold rest. rewrite <- (eenum_sum (table ts) (gone_of ts) (missed_of ts)). rewrite seq_length.
    rewrite (qsum_ext (event_weight ts) (ew (table ts) (gone_of ts) (missed_of ts) (seq 0 (length ts))) es).
    - apply qsum_perm, Permutation_map. apply NoDup_Permutation; [exact N|apply eenum_nodup, seq_NoDup|].
      intros e. rewrite I, eenum_in. apply event_ev.
    - intros e He. apply event_weight_ew0. apply I in He. apply He. }
  split.
  - intros (es & N & I & ->). auto.
  - intros ->. exists (eenum (length ts) (seq 0 nZ)).
    assert (N : NoDup (eenum (length ts) (seq 0 nZ))) by apply eenum_nodup, seq_NoDup.
    assert (I : forall e, In e (eenum (length ts) (seq 0 nZ)) <-> event (length ts) nZ e).
    { intros e. rewrite eenum_in. symmetry. apply event_ev. }
    split; [exact N|]. split; [exact I|]. symmetry. auto.
Qed.

Theorem posterior_alive : forall ts nZ m v D, (m < length ts)%nat ->
  D = asum (table ts) (rest ts) (fun _ => 1) (seq 0 (length ts)) (seq 0 nZ) -> D <> 0 ->
  v * D = asum (table ts) (but (rest ts) m (missed_of ts m)) (fun _ => 1) (seq 0 (length ts)) (seq 0 nZ) ->
  posterior ts nZ (alive m) v.
Proof.
  intros ts nZ m v D Hm ED HD HN. exists (eenum (length ts) (seq 0 nZ)).
  split; [apply eenum_nodup, seq_NoDup|]. split; [intros e; rewrite eenum_in; symmetry; apply event_ev|].
  assert (E1 : qsum (map (event_weight ts) (eenum (length ts) (seq 0 nZ))) = D).
  { rewrite ED. unfold rest. rewrite <- (eenum_sum (table ts) (gone_of ts) (missed_of ts)). rewrite seq_length.
    apply qsum_ext. intros e He. apply event_weight_ew0. apply eenum_in in He. apply He. }
  rewrite E1. split; [exact HD|].
  assert (E2 : qsum (map (event_weight ts) (filter (alive m) (eenum (length ts) (seq 0 nZ)))) = v * D).
  { rewrite HN. unfold rest. assert (K := alive_sum (table ts) (gone_of ts) (missed_of ts) (seq 0 (length ts)) m m (seq 0 nZ) (seq_NoDup _ _)).
    rewrite seq_length in K. rewrite <- K.
    - apply qsum_ext. intros e He. apply filter_In in He. destruct He as [He _]. apply event_weight_ew0. apply eenum_in in He. apply He.
    - rewrite nth_error_nth' with (d := 0%nat) by (rewrite seq_length; exact Hm). rewrite seq_nth by exact Hm. reflexivity. }
  rewrite E2. symmetry. apply Qcdiv_mult_l. exact HD.
Qed.
End Tracks.
