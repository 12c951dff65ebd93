(** Proofs for C170-C174. *)
From Coq Require Import QArith Qcanon ZArith List Bool Arith Lia Lqa Permutation Sorted.
From Verif Require Import Base ListUtil GMModel GMSpec GMProofs GMProofs2 GMProofs3 GMProofs4 TracksModel TracksSpec TracksProofs AccessModel AccessSpec.
Import ListNotations.
Close Scope Q_scope.

Lemma particle_some : forall A (ps : list A) i g, particle ps i = Some g <-> (0 <= i)%Z /\ nth_error ps (Z.to_nat i) = Some g.
Proof.
  intros A ps i g. unfold particle. destruct ((0 <=? i) && (i <? Z.of_nat (length ps)))%Z eqn:E; split.
  - apply andb_true_iff in E as [E _]. apply Z.leb_le in E. auto.
  - tauto.
  - discriminate.
  - intros [H1 H2]. assert (Z.to_nat i < length ps)%nat by (apply nth_error_Some; congruence).
    apply andb_false_iff in E as [E|E]; [apply Z.leb_gt in E|apply Z.ltb_ge in E]; lia.
Qed.

Lemma particle_none : forall A (ps : list A) i, particle ps i = None <-> ~ (0 <= i < Z.of_nat (length ps))%Z.
Proof.
  intros A ps i. destruct (particle ps i) eqn:E; split; intro H; try discriminate; auto.
  - apply particle_some in E as [H1 H2]. assert (Z.to_nat i < length ps)%nat by (apply nth_error_Some; congruence). lia.
  - intros [H1 H2]. assert (Z.to_nat i < length ps)%nat as K by lia. apply nth_error_Some in K.
    destruct (nth_error ps (Z.to_nat i)) eqn:F; [|congruence].
    assert (particle ps i = Some a) by (apply particle_some; auto). congruence.
Qed.

Lemma flen_le : forall A (f : A -> bool) l, (length (filter f l) <= length l)%nat.
Proof. induction l as [|x l IH]; simpl; auto. destruct (f x); simpl; lia. Qed.

Lemma count_le : forall h g F, good h g F -> (0 <= gn g <= Z.of_nat (length (gl g)))%Z.
Proof.
  intros h g F [_ ->]. unfold live_count. pose proof (flen_le _ (fun s => match sp s with Some _ => true | None => false end) (gl g)). lia.
Qed.

(** One access: index out of range, a landmark, or a null pointer. *)
Lemma getLandmark_val : forall h ps i m, wf_maps h ps ->
  getLandmark h ps i m =
    match particle ps i with
    | Some g => if ((0 <=? m) && (m <? gn g))%Z then
                  match nth_error (view h g) (Z.to_nat m) with
                  | Some (Some l, w, _) => Val (Some (l, w))
                  | Some (None, _, _) => UB NullDeref
                  | None => UB OutOfBounds
                  end
                else Val None
    | None => Val None
    end.
Proof.
  intros h ps i m Hw. unfold getLandmark, getGMSize. destruct (particle ps i) as [g|] eqn:E; [|reflexivity].
  apply particle_some in E as [Hi Hg]. destruct (Hw g (nth_error_In _ _ Hg)) as [F HF].
  pose proof (count_le _ _ _ HF) as Hc. unfold getGaussianCount.
  destruct (gn g =? -1)%Z eqn:E1; [apply Z.eqb_eq in E1; lia|]. cbn [orb].
  destruct (m <? 0)%Z eqn:E2.
  { apply Z.ltb_lt in E2. replace (0 <=? m)%Z with false by (symmetry; apply Z.leb_gt; lia). reflexivity. }
  apply Z.ltb_ge in E2. replace (0 <=? m)%Z with true by (symmetry; apply Z.leb_le; lia). cbn [orb andb].
  rewrite Z.ltb_antisym. destruct (gn g <=? m)%Z eqn:E3; cbn [negb]; [reflexivity|]. apply Z.leb_gt in E3.
  rewrite Hg. cbn [of_option obind]. unfold getGaussian, slot_at, view, viewl. rewrite nth_error_map.
  assert (Z.to_nat m < length (gl g))%nat as Hlt by lia.
  destruct (nth_error (gl g) (Z.to_nat m)) as [s|] eqn:Es; [|apply nth_error_None in Es; lia].
  cbn [of_option obind option_map fst snd vslot_of].
  unfold vslot_of. destruct (sp s) as [p|] eqn:Ep.
  - unfold cell. rewrite Ep. destruct (owned_deref h _ p (proj1 HF)) as (l & Hd & Hl).
    + apply in_or_app. left. eapply in_ptrsl; eauto. eapply nth_error_In; eauto.
    + rewrite Hl. cbn [fst snd]. rewrite Hd. reflexivity.
  - unfold cell. rewrite Ep. reflexivity.
Qed.

Lemma no_holes_gn : forall h g F, good h g F -> no_holes g -> gn g = Z.of_nat (length (view h g)).
Proof. intros h g F [_ H] Hn. rewrite H, no_holes_count by auto. unfold view, viewl. now rewrite map_length. Qed.

Lemma no_holes_view : forall h g F k v, good h g F -> no_holes g -> nth_error (view h g) k = Some v ->
  exists l w wp, v = (Some l, w, wp).
Proof.
  intros h g F k v Hg Hn Hk. unfold view, viewl in Hk. rewrite nth_error_map in Hk.
  destruct (nth_error (gl g) k) as [s|] eqn:Es; [|discriminate]. injection Hk as <-.
  destruct (cell h s) as [l|] eqn:Ec.
  - exists l, (sw s), (swp s). unfold vslot_of. now rewrite Ec.
  - exfalso. apply (Hn s (nth_error_In _ _ Es)). eapply cell_none; eauto.
Qed.

Lemma read_from_ok : forall h ps i g F n m, wf_maps h ps -> particle ps i = Some g -> good h g F -> no_holes g ->
  (0 <= m)%Z -> (m + Z.of_nat n <= gn g)%Z ->
  read_from h ps i m n = Val (contents (firstn n (skipn (Z.to_nat m) (view h g)))).
Proof.
  intros h ps i g F n m Hw Hp Hg Hn. revert m. induction n as [|n IH]; intros m H0 Hm; [reflexivity|].
  cbn [read_from]. rewrite (getLandmark_val h ps i m Hw), Hp.
  replace ((0 <=? m) && (m <? gn g))%Z with true
    by (symmetry; apply andb_true_iff; split; [apply Z.leb_le|apply Z.ltb_lt]; lia).
  pose proof (no_holes_gn _ _ _ Hg Hn) as HL.
  destruct (nth_error (view h g) (Z.to_nat m)) as [v|] eqn:Ev; [|apply nth_error_None in Ev; lia].
  destruct (no_holes_view _ _ _ _ _ Hg Hn Ev) as (l & w & wp & ->). cbn [obind].
  rewrite IH by lia. cbn [obind]. replace (Z.to_nat (m + 1)) with (S (Z.to_nat m)) by lia.
  f_equal. assert (skipn (Z.to_nat m) (view h g) = ((Some l, w, wp) :: skipn (S (Z.to_nat m)) (view h g))) as E; [|rewrite E; reflexivity].
  clear -Ev. revert Ev. generalize (view h g) (Z.to_nat m). intros V k. revert V. induction k as [|k IH]; intros [|x V] E; try discriminate.
  - injection E as ->. reflexivity.
  - cbn in E. cbn [skipn]. rewrite (IH V E). reflexivity.
Qed.

(** C170. *)
Lemma access_ok : forall h ps i g, wf_maps h ps -> (0 <= i)%Z -> nth_error ps (Z.to_nat i) = Some g -> no_holes g ->
  getGMSize ps i = Z.of_nat (length (view h g)) /\
  read_map h ps i = Val (contents (view h g)) /\ length (contents (view h g)) = length (view h g) /\
  (forall m, (0 <= m < Z.of_nat (length (view h g)))%Z ->
     exists l w wp, nth_error (view h g) (Z.to_nat m) = Some (Some l, w, wp) /\ getLandmark h ps i m = Val (Some (l, w))).
Proof.
  intros h ps i g Hw Hi Hg Hn. destruct (Hw g (nth_error_In _ _ Hg)) as [F HF].
  assert (particle ps i = Some g) as Hp by (apply particle_some; auto).
  pose proof (no_holes_gn _ _ _ HF Hn) as HL. unfold getGMSize at 1. rewrite Hp. unfold getGaussianCount.
  split; [exact HL|]. split; [|split].
  - unfold read_map, getGMSize. rewrite Hp. unfold getGaussianCount.
    rewrite (read_from_ok h ps i g F) by (auto; lia). cbn [Z.to_nat skipn]. rewrite HL, Nat2Z.id, firstn_all. reflexivity.
  - assert (forall k v, nth_error (view h g) k = Some v -> exists l w wp, v = (Some l, w, wp)) as K
      by (intros; eapply no_holes_view; eauto).
    revert K. generalize (view h g). induction l as [|v V IH]; intro K; [reflexivity|].
    destruct (K 0%nat v eq_refl) as (l & w & wp & ->). cbn. f_equal. apply IH. intros k v Hk. apply (K (S k) v Hk).
  - intros m Hm. rewrite (getLandmark_val h ps i m Hw), Hp.
    replace ((0 <=? m) && (m <? gn g))%Z with true
      by (symmetry; apply andb_true_iff; split; [apply Z.leb_le|apply Z.ltb_lt]; lia).
    destruct (nth_error (view h g) (Z.to_nat m)) as [v|] eqn:Ev; [|apply nth_error_None in Ev; lia].
    destruct (no_holes_view _ _ _ _ _ HF Hn Ev) as (l & w & wp & ->). eauto 6.
Qed.

Lemma access_out : forall h ps i m, wf_maps h ps ->
  (~ (0 <= i < Z.of_nat (length ps))%Z -> getGMSize ps i = (-1)%Z) /\
  (getLandmark h ps i m = Val None <->
     ~ ((0 <= i < Z.of_nat (length ps))%Z /\ (0 <= m < getGMSize ps i)%Z)).
Proof.
  intros h ps i m Hw. split.
  - intro H. unfold getGMSize. apply particle_none in H. now rewrite H.
  - rewrite getLandmark_val by auto. unfold getGMSize, getGaussianCount. destruct (particle ps i) as [g|] eqn:E.
    + assert (0 <= i < Z.of_nat (length ps))%Z as Hi.
      { apply particle_some in E as [H1 H2]. assert (Z.to_nat i < length ps)%nat by (apply nth_error_Some; congruence). lia. }
      destruct ((0 <=? m) && (m <? gn g))%Z eqn:B.
      * apply andb_true_iff in B as [B1 B2]. apply Z.leb_le in B1. apply Z.ltb_lt in B2. split.
        -- destruct (nth_error (view h g) (Z.to_nat m)) as [[[[l|] w] wp]|]; discriminate.
        -- intro K. exfalso. apply K. lia.
      * split; [intros _|reflexivity]. intros [_ K]. apply andb_false_iff in B as [B|B]; [apply Z.leb_gt in B|apply Z.ltb_ge in B]; lia.
    + apply particle_none in E. tauto.
Qed.

(** Merging leaves only empty slots of weight zero; pruning with a positive threshold drops them. *)
Definition vholes_zero (V : list vslot) : Prop := forall v, In v V -> fst (fst v) = None -> (vw v == 0 /\ snd v == 0)%Q.

Lemma holes_view : forall h g F, good h g F -> (holes_zero g <-> vholes_zero (view h g)).
Proof.
  intros h g F Hg. split; intro H.
  - intros v Hv Hn. unfold view, viewl in Hv. apply in_map_iff in Hv as (s & <- & Hs). cbn in Hn |- *.
    apply In_nth_error in Hs as [k Hk]. apply H; [eapply nth_error_In; eauto|]. eapply cell_none; eauto.
  - intros s Hs Hn. apply (H (vslot_of h s)); [unfold view, viewl; now apply in_map|]. unfold vslot_of, cell. now rewrite Hn.
Qed.

Lemma in_upd : forall A (l : list A) i a x, In x (upd l i a) -> x = a \/ In x l.
Proof. induction l as [|y l IH]; intros [|i] a x; simpl; intros H; auto; destruct H as [H|H]; auto. apply IH in H. tauto. Qed.

Lemma merges_holes : forall md t f V tr V', merges md t f V tr V' -> vholes_zero V -> vholes_zero V'.
Proof.
  induction 1 as [v|v ij v1 tr v2 H _ IH]; auto. intro Hz. apply IH. destruct ij as [i j]. unfold pair_merge in H.
  repeat match goal with H : exists _, _ |- _ => destruct H | H : _ /\ _ |- _ => destruct H end. subst v1.
  intros y Hy Hn. apply in_upd in Hy as [->|Hy]; [cbn; split; reflexivity|].
  apply in_upd in Hy as [->|Hy]; [discriminate|]. now apply Hz.
Qed.

Lemma maintained : forall md srt h g F tm f tp, sorter_ok srt -> good h g F -> holes_zero g -> (0 < tp)%Q ->
  exists h1 g1 k1 h2 g2 k2, merge md h g tm f = Val (h1, g1, k1) /\ prune srt h1 g1 tp = Val (h2, g2, k2) /\
    good h2 g2 F /\ no_holes g2 /\ holes_zero g2 /\ read_map h2 [g2] 0 = Val (contents (view h2 g2)) /\
    length (contents (view h2 g2)) = length (view h2 g2).
Proof.
  intros md srt h g F tm f tp Hs Hg Hz Ht.
  destruct (merge_ok md h g F tm f Hg) as (h1 & g1 & tr & H1 & Hg1 & _ & _ & Hm & _).
  assert (holes_zero g1) as Hz1 by (apply (holes_view _ _ _ Hg1); eapply merges_holes; eauto; apply (holes_view _ _ _ Hg); auto).
  destruct (prune_exact srt h1 g1 F tp Hs Hg1) as (h2 & g2 & k2 & H2 & Hg2 & _ & _ & _ & K). destruct (K Ht Hz1) as [Hn _].
  exists h1, g1, (length tr), h2, g2, k2. split; [exact H1|]. split; [exact H2|]. split; [exact Hg2|]. split; [exact Hn|].
  split; [intros s Hin E; exfalso; exact (Hn s Hin E)|].
  destruct (access_ok h2 [g2] 0 g2) as (_ & R & L & _); auto; try lia.
  intros x [<-|[]]. eauto.
Qed.

(** Tracks. *)
Lemma track_ok : forall h ps i m dst F, tgood h (concat ps ++ [dst]) F ->
  (forall ts t, (0 <= i)%Z -> nth_error ps (Z.to_nat i) = Some ts -> (0 <= m)%Z -> nth_error ts (Z.to_nat m) = Some t ->
     exists h' dst', getTrack h ps i m dst = Val (h', dst', true) /\ tgood h' (concat ps ++ [dst']) F /\
       tview_of h' dst' = tview_of h t /\ tviews h' (concat ps) = tviews h (concat ps)) /\
  ((forall ts t, ~ ((0 <= i)%Z /\ nth_error ps (Z.to_nat i) = Some ts /\ (0 <= m)%Z /\ nth_error ts (Z.to_nat m) = Some t)) ->
     getTrack h ps i m dst = Val (h, dst, false)).
Proof.
  intros h ps i m dst F Hg. split.
  - intros ts t Hi Hts Hm Ht. unfold getTrack, getTrackNum.
    assert (particle ps i = Some ts) as -> by (apply particle_some; auto).
    assert (Z.to_nat m < length ts)%nat by (apply nth_error_Some; congruence).
    replace ((Z.of_nat (length ts) =? -1) || (m <? 0) || (Z.of_nat (length ts) <=? m))%Z with false.
    2:{ symmetry. apply orb_false_iff. split; [apply orb_false_iff; split|]; [apply Z.eqb_neq|apply Z.ltb_ge|apply Z.leb_gt]; lia. }
    rewrite Hts. cbn [of_option obind]. rewrite Ht. cbn [of_option obind].
    assert (In t (concat ps)) as Hin by (apply in_concat; exists ts; split; eapply nth_error_In; eauto).
    destruct (track_copy_ok h (concat ps) t [] dst F Hg) as (h' & d' & H1 & H2 & _ & H4).
    { rewrite app_nil_r. exact Hin. }
    rewrite H1. cbn [obind fst snd]. exists h', d'. split; [reflexivity|]. split; [exact H2|].
    unfold tviews in H4. rewrite map_app in H4. cbn [map] in H4.
    apply app_inj_tail in H4 as [H5 H6]. split; assumption.
  - intro K. unfold getTrack, getTrackNum. destruct (particle ps i) as [ts|] eqn:E; [|reflexivity].
    apply particle_some in E as [H1 H2].
    destruct ((Z.of_nat (length ts) =? -1) || (m <? 0) || (Z.of_nat (length ts) <=? m))%Z eqn:B; [reflexivity|exfalso].
    apply orb_false_iff in B as [B B3]. apply orb_false_iff in B as [_ B2]. apply Z.ltb_ge in B2. apply Z.leb_gt in B3.
    destruct (nth_error ts (Z.to_nat m)) as [t|] eqn:Et; [exact (K ts t (conj H1 (conj H2 (conj B2 Et))))|].
    apply nth_error_None in Et. lia.
Qed.

(** Integrity check. *)
Lemma nan_free : forall l, existsb is_nan l = false <-> exists x : list Q, l = map Some x.
Proof.
  induction l as [|[a|] l IH]; cbn.
  - split; [now exists []|reflexivity].
  - split.
    + intro H. apply IH in H as [x ->]. now exists (a :: x).
    + intros [[|b x] E]; [discriminate|]. injection E as _ ->. apply IH. eauto.
  - split; [discriminate|]. intros [[|b x] E]; discriminate.
Qed.
Lemma nan_free2 : forall l, existsb (existsb is_nan) l = false <-> exists x : list (list Q), l = map (map Some) x.
Proof.
  induction l as [|a l IH]; cbn.
  - split; [now exists []|reflexivity].
  - split.
    + intro H. apply orb_false_iff in H as [H1 H2]. apply nan_free in H1 as [x ->]. apply IH in H2 as [y ->]. now exists (x :: y).
    + intros [[|b x] E]; [discriminate|]. injection E as -> ->. apply orb_false_iff. split; [apply nan_free|apply IH]; eauto.
Qed.

Lemma fold_nadd : forall (x : list Q) a, exists q, fold_left nadd (map Some x) (Some a) = Some q /\ (q == a + qsumQ x)%Q.
Proof.
  induction x as [|b x IH]; intro a; cbn.
  - exists a. split; [reflexivity|ring].
  - destruct (IH (a + b)%Q) as (q & H1 & H2). exists q. split; [exact H1|]. rewrite H2. unfold qsumQ. ring.
Qed.
Lemma ones_val : forall Sx : list (list Q), exists q, ones_form (map (map Some) Sx) = Some q /\ (q == qsumQ (map qsumQ Sx))%Q.
Proof.
  intro Sx. unfold ones_form. rewrite map_map.
  assert (exists r, map (fun x => row_sum (map Some x)) Sx = map Some r /\ (qsumQ r == qsumQ (map qsumQ Sx))%Q) as (r & -> & Hr).
  { induction Sx as [|x Sx (r & H1 & H2)]; [exists []; split; reflexivity|].
    unfold row_sum at 1. cbn [map]. destruct (fold_nadd x 0%Q) as (q & K1 & K2). exists (q :: r). split.
    - cbn [map]. f_equal; [exact K1|exact H1].
    - cbn [map]. change (qsumQ (q :: r)) with (q + qsumQ r)%Q. change (qsumQ (qsumQ x :: map qsumQ Sx)) with (qsumQ x + qsumQ (map qsumQ Sx))%Q. rewrite H2, K2. ring. }
  destruct (fold_nadd r 0%Q) as (q & H1 & H2). exists q. split; [exact H1|]. rewrite H2, Hr. ring.
Qed.

Lemma check_one_iff : forall g, check_one (Some g) = true <-> passes g.
Proof.
  intro g. cbn. rewrite !andb_true_iff, !negb_true_iff. split.
  - intros [[H1 [H2 H3]] H4]. apply nan_free in H1 as [x Hx]. apply nan_free2 in H2 as [Sx HS].
    destruct (u_w g) as [w|] eqn:Ew; [|discriminate]. exists x, Sx, w. split; [repeat split; auto|].
    rewrite HS in H3. destruct (ones_val Sx) as (q & K1 & K2). rewrite K1 in H3. apply negb_true_iff in H3.
    rewrite <- K2. apply Qnot_le_lt. intro L. apply Qle_bool_iff in L. congruence.
  - intros (x & Sx & w & (Hx & HS & Hw) & Hp). split; [split; [|split]|].
    + apply nan_free. eauto.
    + apply nan_free2. eauto.
    + rewrite HS. destruct (ones_val Sx) as (q & K1 & K2). rewrite K1. apply negb_true_iff.
      destruct (Qle_bool q 0) eqn:E; auto. apply Qle_bool_iff in E. rewrite K2 in E. exfalso. apply (Qlt_not_le _ _ Hp E).
    + now rewrite Hw.
Qed.

Lemma check_slots_iff : forall m is, (forall i, In i is -> i < length (n_slots m))%nat ->
  exists b, check_slots m is = Val b /\
    (b = true <-> forall i g, In i is -> nth_error (n_slots m) i = Some (Some g) -> passes g).
Proof.
  intros m. induction is as [|i is IH]; intro H.
  - exists true. split; [reflexivity|]. split; [intros _ i g []|reflexivity].
  - cbn [check_slots]. destruct (nth_error (n_slots m) i) as [o|] eqn:Eo.
    2:{ apply nth_error_None in Eo. specialize (H i (or_introl eq_refl)). lia. }
    cbn [of_option obind]. destruct IH as (b & H1 & H2); [intros; apply H; now right|].
    destruct (check_one o) eqn:Ec.
    + exists b. split; [exact H1|]. rewrite H2. split.
      * intros K j g [<-|Hj] E; [|eapply K; eauto]. rewrite Eo in E. injection E as ->. now apply check_one_iff.
      * intros K j g Hj E. apply (K j g); auto. now right.
    + exists false. split; [reflexivity|]. split; [discriminate|]. intro K. exfalso.
      destruct o as [g|]; [|discriminate]. specialize (K i g (or_introl eq_refl) Eo). apply check_one_iff in K. congruence.
Qed.

Lemma check_iff : forall ps, (forall m, In m ps -> n_count m <= length (n_slots m))%nat ->
  exists b, check_maps ps = Val b /\
    (b = true <-> forall m i g, In m ps -> (i < n_count m)%nat -> nth_error (n_slots m) i = Some (Some g) -> passes g).
Proof.
  induction ps as [|m ps IH]; intro H.
  - exists true. split; [reflexivity|]. split; [intros _ m i g []|reflexivity].
  - cbn [check_maps]. destruct (check_slots_iff m (seq 0 (n_count m))) as (b & H1 & H2).
    { intros i Hi. apply in_seq in Hi. specialize (H m (or_introl eq_refl)). lia. }
    rewrite H1. cbn [obind]. destruct b.
    + destruct IH as (b & K1 & K2); [intros; apply H; now right|]. exists b. split; [exact K1|]. rewrite K2. split.
      * intros K m' i g [<-|Hm] Hi E; [|eapply K; eauto]. eapply (proj1 H2 eq_refl); eauto. apply in_seq. lia.
      * intros K m' i g Hm. apply K. now right.
    + exists false. split; [reflexivity|]. split; [discriminate|]. intro K. apply H2. intros i g Hi E.
      apply in_seq in Hi. apply (K m i g); auto; [now left|lia].
Qed.

Lemma dot_ones : forall r n, length r = n -> (dot r (repeat 1%Q n) == qsumQ r)%Q.
Proof. induction r as [|a r IH]; intros n <-; [reflexivity|]. change (qsumQ (a :: r)) with (a + qsumQ r)%Q. cbn [length repeat dot]. rewrite IH by reflexivity. ring. Qed.

Lemma sound_passes : forall g, sound_gauss g -> passes g.
Proof.
  intros g (n & x & Sx & w & Hn & _ & [Hl Hr] & Hp). exists x, Sx, w. split; [exact Hn|].
  specialize (Hp (repeat 1%Q (S n)) (repeat_length _ _)).
  assert (quad Sx (repeat 1%Q (S n)) == qsumQ (map qsumQ Sx))%Q as E.
  { unfold quad. rewrite dot_ones by (rewrite map_length; exact Hl). clear Hl Hp Hn. induction Sx as [|r Sx IH]; [reflexivity|].
    cbn [map qsumQ fold_right]. rewrite dot_ones by (apply Hr; now left). fold (qsumQ (map qsumQ Sx)).
    fold (qsumQ (map (fun r0 => dot r0 (repeat 1%Q (S n))) Sx)). rewrite IH by (intros; apply Hr; now right). reflexivity. }
  rewrite <- E. apply Hp. exists 1%Q. split; [now left|]. intro K. discriminate K.
Qed.

Lemma no_false_alarm : forall ps, (forall m, In m ps -> n_count m <= length (n_slots m))%nat ->
  (forall m g, In m ps -> In (Some g) (n_slots m) -> sound_gauss g) -> check_maps ps = Val true.
Proof.
  intros ps H K. destruct (check_iff ps H) as (b & H1 & H2). rewrite H1. f_equal. apply H2.
  intros m i g Hm Hi E. apply sound_passes. apply (K m g Hm). eapply nth_error_In; eauto.
Qed.
