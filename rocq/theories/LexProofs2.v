(** Proofs about PermutationLexicographic and BruteForceLinearAssignment: the theorems. *)
From Coq Require Import ZArith List Bool Arith Lia Permutation Sorted Factorial.
From Verif Require Import Base ListUtil HungarianModel AssignSpec AssignLemmas HungarianProofs3 EnumLemmas LexModel LexSpec LexProofs.
Import ListNotations.
Local Open Scope nat_scope.

Lemma initial_order : forall nZ K, map (fun i => if Nat.ltb i nZ then i else nZ) (seq 0 (nZ + K)) =
  seq 0 nZ ++ repeat nZ K.
Proof.
  intros nZ K. rewrite seq_app, map_app. f_equal.
  - rewrite <- (map_id (seq 0 nZ)) at 2. apply map_ext_in. intros i Hi. apply in_seq in Hi.
    destruct (Nat.ltb_spec i nZ); [auto|lia].
  - assert (G : forall s, nZ <= s -> map (fun i => if Nat.ltb i nZ then i else nZ) (seq s K) = repeat nZ K).
    { induction K as [|K IH]; intros s Hs; auto.
      simpl. destruct (Nat.ltb_spec s nZ); [lia|]. f_equal. apply IH. lia. }
    apply G. lia.
Qed.

Lemma seq_asc : forall n s, asc (seq s n).
Proof.
  induction n; intros s; simpl; constructor; [apply IHn|]. apply Forall_forall. intros x Hx. apply in_seq in Hx. lia.
Qed.

Lemma base_asc : forall nZ K, asc (seq 0 nZ ++ repeat nZ K).
Proof.
  intros. apply sorted_app. split; [apply seq_asc|]. split.
  - induction K; simpl; constructor; auto. apply Forall_forall. intros x Hx. apply repeat_spec in Hx. lia.
  - intros x y Hx Hy. apply in_seq in Hx. apply repeat_spec in Hy. lia.
Qed.

Lemma base_count : forall nZ K v, count_occ Nat.eq_dec (seq 0 nZ ++ repeat nZ K) v =
  if lt_dec v nZ then 1 else if Nat.eq_dec v nZ then K else 0.
Proof.
  intros nZ K v. rewrite count_occ_app. destruct (lt_dec v nZ) as [H|H].
  - assert (H1 : count_occ Nat.eq_dec (seq 0 nZ) v = 1).
    { apply NoDup_count_occ'; [apply seq_NoDup|apply in_seq; lia]. }
    assert (H2 : count_occ Nat.eq_dec (repeat nZ K) v = 0).
    { apply count_occ_not_In. intros Hin. apply repeat_spec in Hin. lia. }
    lia.
  - assert (H1 : count_occ Nat.eq_dec (seq 0 nZ) v = 0).
    { apply count_occ_not_In. intros Hin. apply in_seq in Hin. lia. }
    rewrite H1. destruct (Nat.eq_dec v nZ) as [->|Hne].
    + simpl. induction K as [|K IH]; simpl; auto. destruct (Nat.eq_dec nZ nZ); [lia|congruence].
    + simpl. apply count_occ_not_In. intros Hin. apply repeat_spec in Hin. lia.
Qed.

Lemma distinct_count : forall (h : list nat) v,
  (forall i j, nth_error h i = Some v -> nth_error h j = Some v -> i = j) <-> count_occ Nat.eq_dec h v <= 1.
Proof.
  induction h as [|a h IH]; intros v; simpl.
  - split; [lia|]. intros _ [|i]; discriminate.
  - destruct (Nat.eq_dec a v) as [->|Hne].
    + split.
      * intros H. assert (H0 : count_occ Nat.eq_dec h v = 0); [|lia].
        apply count_occ_not_In. intros Hin. apply In_nth_error in Hin. destruct Hin as [k Hk].
        specialize (H 0 (S k) eq_refl Hk). discriminate.
      * intros H. assert (H0 : ~ In v h) by (apply (count_occ_not_In Nat.eq_dec); lia).
        intros [|i] [|j] Hi Hj; auto; simpl in *; exfalso; apply H0; eapply nth_error_In; eauto.
    + rewrite <- IH. split; intros H.
      * intros i j Hi Hj. specialize (H (S i) (S j) Hi Hj). lia.
      * intros [|i] [|j] Hi Hj; simpl in *; auto; try congruence.
Qed.

Lemma association_iff : forall nM nZ cl h, (cl = false -> nM = nZ) ->
  association nM nZ cl h <->
  exists t, Permutation (seq 0 nZ ++ repeat nZ (if cl then nM else 0)) (h ++ t) /\ length h = nM.
Proof.
  intros nM nZ cl h Hcl. set (K := if cl then nM else 0). split.
  - intros (Hl & Hv & Hd).
    assert (Hc : forall v, v < nZ -> count_occ Nat.eq_dec h v <= 1).
    { intros v Hvz. apply distinct_count. intros i j. now apply Hd. }
    exists (filter (fun v => negb (existsb (Nat.eqb v) h)) (seq 0 nZ) ++ repeat nZ (K - count_occ Nat.eq_dec h nZ)).
    split; auto. apply (Permutation_count_occ Nat.eq_dec). intros v. rewrite base_count, !count_occ_app.
    assert (Hr : count_occ Nat.eq_dec (repeat nZ (K - count_occ Nat.eq_dec h nZ)) v =
      if Nat.eq_dec v nZ then K - count_occ Nat.eq_dec h nZ else 0).
    { destruct (Nat.eq_dec v nZ) as [->|Hne].
      - induction (K - count_occ Nat.eq_dec h nZ) as [|k IH]; simpl; auto. destruct (Nat.eq_dec nZ nZ); [lia|congruence].
      - apply count_occ_not_In. intros Hin. apply repeat_spec in Hin. lia. }
    rewrite Hr.
    destruct (lt_dec v nZ) as [Hlt|Hge].
    + destruct (Nat.eq_dec v nZ); [lia|].
      assert (Hf : count_occ Nat.eq_dec (filter (fun v => negb (existsb (Nat.eqb v) h)) (seq 0 nZ)) v =
         1 - count_occ Nat.eq_dec h v).
      { destruct (in_dec Nat.eq_dec v h) as [Hin|Hni].
        - assert (H1 := proj1 (count_occ_In Nat.eq_dec h v) Hin). specialize (Hc v Hlt).
          assert (H0 : count_occ Nat.eq_dec (filter (fun v => negb (existsb (Nat.eqb v) h)) (seq 0 nZ)) v = 0); [|lia].
          apply count_occ_not_In. intros H. apply filter_In in H. destruct H as [_ H].
          rewrite negb_true_iff in H. apply not_true_iff_false in H. apply H. apply existsb_exists.
          exists v. split; auto. apply Nat.eqb_refl.
        - assert (H0 : count_occ Nat.eq_dec h v = 0) by (now apply count_occ_not_In). rewrite H0. simpl.
          apply NoDup_count_occ'; [apply NoDup_filter, seq_NoDup|]. apply filter_In. split; [apply in_seq; lia|].
          rewrite negb_true_iff. apply not_true_iff_false. intros H. apply existsb_exists in H.
          destruct H as (x & Hx & E). apply Nat.eqb_eq in E. subst. contradiction. }
      specialize (Hc v Hlt). lia.
    + assert (Hf : count_occ Nat.eq_dec (filter (fun v => negb (existsb (Nat.eqb v) h)) (seq 0 nZ)) v = 0).
      { apply count_occ_not_In. intros H. apply filter_In in H. destruct H as [H _]. apply in_seq in H. lia. }
      rewrite Hf. destruct (Nat.eq_dec v nZ) as [->|Hne].
      * assert (count_occ Nat.eq_dec h nZ <= K); [|lia]. unfold K. destruct cl.
        -- rewrite <- Hl. apply count_occ_bound.
        -- assert (count_occ Nat.eq_dec h nZ = 0); [|lia]. apply count_occ_not_In. intros Hin.
           destruct (Hv _ Hin) as [?|[? _]]; [lia|discriminate].
      * assert (count_occ Nat.eq_dec h v = 0); [|lia]. apply count_occ_not_In. intros Hin.
        destruct (Hv _ Hin) as [?|[_ ?]]; lia.
  - intros (t & Hp & Hl). split; auto.
    assert (Hc : forall v, count_occ Nat.eq_dec h v <= if lt_dec v nZ then 1 else if Nat.eq_dec v nZ then K else 0).
    { intros v. rewrite <- base_count. rewrite (proj1 (Permutation_count_occ Nat.eq_dec _ _) Hp v).
      rewrite count_occ_app. lia. }
    split.
    + intros v Hin. assert (H1 := proj1 (count_occ_In Nat.eq_dec h v) Hin). specialize (Hc v).
      destruct (lt_dec v nZ); auto. destruct (Nat.eq_dec v nZ); [|lia]. right. split; auto.
      unfold K in Hc. destruct cl; auto. lia.
    + intros i j v Hv. apply distinct_count. specialize (Hc v). destruct (lt_dec v nZ); lia.
Qed.

Theorem lex_enumerates : forall nM nZ includeClutter, nM + nZ <> 0 ->
  let cl := if Nat.eqb nM nZ then includeClutter else true in
  let size := if cl then nM + nZ else nM in
  exists outs,
  (forall k, next_calls k (lex_new nM nZ includeClutter) =
     Val (firstn k (combine (seq 1 (length outs)) outs ++ repeat (0, repeat 0 size) k))) /\
  ascending lex_lt (map (firstn nM) outs) /\
  (forall h, In h (map (firstn nM) outs) <-> association nM nZ cl h) /\
  (forall o, In o outs -> Permutation o (seq 0 nZ ++ repeat nZ (if cl then nM else 0)) /\
                          StronglySorted le (skipn nM o)).
Proof.
  intros nM nZ ic Hnz cl size.
  assert (Hcl : cl = false -> nM = nZ).
  { unfold cl. destruct (Nat.eqb_spec nM nZ); auto. discriminate. }
  set (b := seq 0 nZ ++ repeat nZ (if cl then nM else 0)).
  assert (Hlo : lex_new nM nZ ic = LX b nM nZ 0 false).
  { unfold lex_new. fold cl. fold size. f_equal. unfold b. rewrite <- initial_order. f_equal. f_equal.
    unfold size. destruct cl; [lia|]. rewrite Hcl by auto. lia. }
  assert (Hlb : length b = size).
  { unfold b, size. rewrite app_length, seq_length, repeat_length. destruct cl; [lia|]. rewrite Hcl by auto. lia. }
  assert (Hsz : nM <= length b) by (rewrite Hlb; unfold size; destruct cl; lia).
  assert (Hpos : b <> []).
  { intros E. assert (H0 : length b = 0) by (rewrite E; auto). rewrite Hlb in H0. unfold size in H0.
    destruct cl; [lia|]. rewrite Hcl in * by auto. lia. }
  assert (Hdig : Forall (fun x => x < S nZ) b).
  { apply Forall_forall. intros x Hx. unfold b in Hx. apply in_app_iff in Hx. destruct Hx as [Hx|Hx].
    - apply in_seq in Hx. lia.
    - apply repeat_spec in Hx. lia. }
  assert (Hasc : asc b) by apply base_asc.
  assert (Hinv : linv nM b b).
  { split; auto. rewrite <- (firstn_skipn nM b) in Hasc. apply sorted_app in Hasc. tauto. }
  destruct (enumerate_from nM nZ b Hsz Hpos Hdig (S (S nZ ^ length b)) b 0 Hinv ltac:(lia))
    as (outs & _ & Hc & Hs & Hl & _ & Hall).
  exists outs. rewrite Hlo. split; [now rewrite <- Hlb|]. split; auto. split.
  - intros h. rewrite association_iff by auto. fold b. split.
    + intros Hin. apply in_map_iff in Hin. destruct Hin as (o & <- & Ho). rewrite Forall_forall in Hl.
      destruct (Hl o Ho) as [Hp _]. exists (skipn nM o). rewrite firstn_skipn. split; auto.
      rewrite firstn_length. apply Permutation_length in Hp. lia.
    + intros (t & Hp & Hh). assert (E : firstn nM (h ++ t) = h).
      { rewrite firstn_app. rewrite Hh, Nat.sub_diag. simpl. rewrite app_nil_r. apply firstn_all2. lia. }
      rewrite <- E. apply Hall; auto. intros Hlt.
      destruct (asc_min b (h ++ t) Hasc Hp) as [Eb|Hb].
      * rewrite <- Eb in Hlt. now apply lex_irrefl in Hlt.
      * rewrite <- (firstn_skipn nM b), <- (firstn_skipn nM (h ++ t)) in Hb. apply lex_app in Hb.
        -- destruct Hb as [[Hb _]|[Eb _]].
           ++ apply (lex_irrefl (firstn nM b)). eapply lex_trans; eauto.
           ++ rewrite Eb in Hlt. now apply lex_irrefl in Hlt.
        -- rewrite !firstn_length. apply Permutation_length in Hp. lia.
  - intros o Ho. rewrite Forall_forall in Hl. destruct (Hl o Ho) as [Hp Ha]. split; auto. now apply Permutation_sym.
Qed.

Lemma ascending_nodup : forall l, ascending lex_lt l -> NoDup l.
Proof.
  induction l as [|x l IH]; simpl; intros H; constructor.
  - intros Hin. destruct H as [H _]. apply (lex_irrefl x). auto.
  - apply IH, H.
Qed.

(** n landmarks, n measurements, no clutter: the permutations. *)
Lemma lex_square : forall n, n <> 0 -> exists outs,
  (forall k, next_calls k (lex_new n n false) =
     Val (firstn k (combine (seq 1 (length outs)) outs ++ repeat (0, repeat 0 n) k))) /\
  NoDup outs /\ (forall o, In o outs <-> Permutation o (seq 0 n)) /\ length outs = fact n.
Proof.
  intros n Hn. destruct (lex_enumerates n n false ltac:(lia)) as (outs & Hc & Hs & Ha & Hp).
  rewrite Nat.eqb_refl in *. simpl in Hp.
  assert (E : map (firstn n) outs = outs).
  { rewrite <- (map_id outs) at 2. apply map_ext_in. intros o Ho. apply firstn_all2.
    destruct (Hp o Ho) as [H _]. apply Permutation_length in H. rewrite app_length, seq_length in H. simpl in H. lia. }
  rewrite E in *. exists outs. split; auto.
  assert (Hnd : NoDup outs) by (now apply ascending_nodup).
  assert (Hiff : forall o, In o outs <-> Permutation o (seq 0 n)).
  { intros o. split.
    - intros Ho. destruct (Hp o Ho) as [H _]. now rewrite app_nil_r in H.
    - intros H. apply Ha. apply (association_iff n n false); auto. exists []. rewrite !app_nil_r.
      split; [now apply Permutation_sym|]. apply Permutation_length in H. now rewrite seq_length in H. }
  split; auto. split; auto. now apply all_perms_length.
Qed.

Lemma bf_loop_ok : forall C off mx outs s nP fuel z,
  (forall k, next_calls k s = Val (firstn k (combine (seq (S nP) (length outs)) outs ++ repeat (0, z) k))) ->
  length outs < fuel ->
  bf_loop fuel s C off mx = Val (map (fun o => (o, bf_score C off mx o)) outs).
Proof.
  induction outs as [|o outs IH]; intros s nP fuel z H Hf; destruct fuel as [|fuel]; try (simpl in Hf; lia).
  - specialize (H 1). simpl in H |- *. destruct (next s) as [[[s' n] p]|u|]; try discriminate.
    simpl in *. injection H as -> ->. reflexivity.
  - assert (H1 := H 1). simpl in H1 |- *. destruct (next s) as [[[s' n] p]|u|] eqn:E; try discriminate.
    simpl in *. injection H1 as -> ->. simpl.
    rewrite (IH s' (S nP) fuel z); [reflexivity| |lia].
    intros k. specialize (H (S k)). simpl in H. rewrite E in H. simpl in H.
    destruct (next_calls k s') as [l|u|]; try discriminate. simpl in H. injection H as H. f_equal. rewrite H.
    assert (G : forall (x : nat * list nat) k l a a', k <= a -> k <= a' ->
        firstn k (l ++ repeat x a) = firstn k (l ++ repeat x a')).
    { clear. induction k as [|k IHk]; intros l a a' Ha Ha'; auto.
      destruct l as [|c l]; simpl.
      - destruct a, a'; try lia. simpl. f_equal. apply (IHk []); lia.
      - f_equal. apply IHk; lia. }
    change ((0, z) :: repeat (0, z) k) with (repeat (0, z) (S k)). apply G; lia.
Qed.

Lemma fold_score : forall C (f : nat -> nat -> Z) o s0 r0, (forall i j, r0 <= i -> In j o -> f i j = C i j) ->
  fold_left (fun s i => (s + f i (nth (i - r0) o 0%nat))%Z) (seq r0 (length o)) s0 = (s0 + score_from C r0 o)%Z.
Proof.
  intros C f o. induction o as [|a o IH]; intros s0 r0 H; simpl.
  - lia.
  - rewrite Nat.sub_diag. rewrite H by (auto; now left).
    rewrite Z.add_assoc. rewrite <- (IH (s0 + C r0 a)%Z (S r0)) by (intros; apply H; [lia|now right]).
    assert (E : forall (l : list nat) (s : Z), (forall i, In i l -> S r0 <= i) ->
      fold_left (fun s i => (s + f i match (i - r0)%nat with 0%nat => a | S m => nth m o 0%nat end)%Z) l s =
      fold_left (fun s i => (s + f i (nth (i - S r0) o 0%nat))%Z) l s).
    { induction l as [|i l IHl]; intros s Hl; auto. simpl. assert (Hi := Hl i (or_introl eq_refl)).
      destruct (i - r0) as [|m] eqn:Em; [lia|]. replace (i - S r0) with m by lia. apply IHl. intros. apply Hl. now right. }
    rewrite E; [|intros i Hi; apply in_seq in Hi; lia].
    reflexivity.
Qed.

Lemma fold_ext : forall (f g : Z -> nat -> Z) l s, (forall a i, In i l -> f a i = g a i) ->
  fold_left f l s = fold_left g l s.
Proof.
  induction l as [|i l IH]; intros s H; auto. simpl. rewrite H by (now left). apply IH. intros. apply H. now right.
Qed.

Lemma bf_score_max : forall C o, bf_score C 0 true o = score C o.
Proof.
  intros C o. unfold bf_score, score. rewrite <- (Z.add_0_l (score_from C 0 o)).
  rewrite <- (fold_score C C o 0%Z 0) by auto. apply fold_ext. intros a i _. now rewrite Nat.sub_0_r.
Qed.

Lemma bf_score_min : forall n C C1 off o, Permutation o (seq 0 n) ->
  (forall x y, x < n -> y < n -> C1 x y = (- C x y - off)%Z) ->
  bf_score C1 off false o = score C o.
Proof.
  intros n C C1 off o Hp H. unfold bf_score, score. rewrite <- (Z.add_0_l (score_from C 0 o)).
  rewrite <- (fold_score C C o 0%Z 0) by auto. apply fold_ext. intros a i Hi. rewrite Nat.sub_0_r.
  apply in_seq in Hi. assert (Hl := Permutation_length Hp). rewrite seq_length in Hl.
  assert (Hn : nth i o 0 < n).
  { assert (Hin : In (nth i o 0) o) by (apply nth_In; lia).
    apply (Permutation_in _ Hp) in Hin. apply in_seq in Hin. lia. }
  rewrite H by lia. lia.
Qed.

Theorem brute_ok : forall pq, pq_contract pq -> forall fuel C n maxToMin, n <> 0 -> fact n < fuel ->
  exists C' res, brute pq fuel C n maxToMin = Val (C', res) /\
  length res = fact n /\ NoDup (map fst res) /\
  (forall a, In a (map fst res) <-> assignment n a) /\
  (forall a s, In (a, s) res -> s = score C a) /\
  StronglySorted (fun x y => (snd y <= snd x)%Z) res /\
  (maxToMin = true -> C' = C) /\
  (maxToMin = false -> exists least, forall x y, x < n -> y < n -> (C' x y = - C x y - least /\ 0 <= C' x y)%Z).
Proof.
  intros pq Hpq fuel C n mx Hn Hf. unfold brute.
  destruct (lex_square n Hn) as (outs & Hc & Hnd & Hiff & Hlen).
  assert (G : forall C1 off, (forall o, Permutation o (seq 0 n) -> bf_score C1 off mx o = score C o) ->
    exists res, (let* l := bf_loop fuel (lex_new n n false) C1 off mx in Val (C1, pq l)) = Val (C1, res) /\
    length res = fact n /\ NoDup (map fst res) /\
    (forall a, In a (map fst res) <-> assignment n a) /\
    (forall a s, In (a, s) res -> s = score C a) /\
    StronglySorted (fun x y => (snd y <= snd x)%Z) res).
  { intros C1 off Hs. rewrite (bf_loop_ok C1 off mx outs _ 0 fuel _ Hc) by lia. cbn [obind].
    set (l := map (fun o => (o, bf_score C1 off mx o)) outs). destruct (Hpq l) as [Hp Hso].
    assert (Hfst : map fst l = outs).
    { unfold l. rewrite map_map. simpl. now rewrite map_id. }
    assert (Hpf : Permutation outs (map fst (pq l))).
    { rewrite <- Hfst at 1. now apply Permutation_map. }
    exists (pq l). split; auto. split; [|split; [|split; [|split]]]; auto.
    - rewrite <- (Permutation_length Hp). unfold l. now rewrite map_length.
    - eapply Permutation_NoDup; eauto.
    - intros a. unfold assignment. rewrite <- Hiff. split; apply Permutation_in; auto. now apply Permutation_sym.
    - intros a s Hin. apply (Permutation_in _ (Permutation_sym Hp)) in Hin. unfold l in Hin.
      apply in_map_iff in Hin. destruct Hin as (o & E & Ho). injection E as <- <-. apply Hs, Hiff, Ho. }
  destruct mx.
  - destruct (G C 0%Z) as (res & E & H1 & H2 & H3 & H4 & H5).
    { intros o _. apply bf_score_max. }
    exists C, res. split; [exact E|]. repeat (split; [assumption|]). split; [auto|discriminate].
  - destruct (prepare_spec n C false) as (C1 & off & E1 & HC1 & _). rewrite E1.
    destruct (G C1 off) as (res & E & H1 & H2 & H3 & H4 & H5).
    { intros o Ho. apply (bf_score_min n); auto. intros x y Hx Hy. destruct (HC1 x y Hx Hy) as [H _]. lia. }
    exists C1, res. split; [exact E|]. repeat (split; [assumption|]). split; [discriminate|]. intros _.
    exists off. intros x y Hx Hy. destruct (HC1 x y Hx Hy) as [H H']. lia.
Qed.
