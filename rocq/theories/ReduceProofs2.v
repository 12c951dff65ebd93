(** Proofs about CostMatrix::reduce, part 2: result of reduce and the exchange argument. *)
From Coq Require Import ZArith List Bool Arith Lia Permutation.
From Verif Require Import Base ListUtil HungarianModel AssignSpec AssignLemmas HungarianProofs ReduceModel ReduceSpec ReduceProofs.
Import ListNotations.
Local Open Scope Z_scope.

(** ** Lists of fixed pairs *)

Lemma filter_split : forall A (g : A -> bool) l,
  Permutation (filter (fun x => negb (g x)) l ++ filter g l) l.
Proof.
  induction l as [|a l IH]; simpl; auto. destruct (g a); simpl.
  - symmetry. rewrite <- Permutation_middle. now constructor.
  - now constructor.
Qed.

Lemma pairs_fst : forall n f, map fst (pairs n f) = filter (fun x => negb (isnone f x)) (seq 0 n).
Proof.
  intros. unfold pairs. induction (seq 0 n) as [|a l IH]; simpl; auto.
  rewrite map_app, IH. unfold isnone. destruct (f a); reflexivity.
Qed.

Lemma pairs_in : forall n f x y, In (x, y) (pairs n f) <-> (x < n)%nat /\ f x = Some y.
Proof.
  intros. unfold pairs. rewrite in_flat_map. split.
  - intros (z & Hz & H). apply in_seq in Hz. destruct (f z) eqn:E; [|contradiction].
    destruct H as [H|[]]. injection H as -> ->. split; auto; lia.
  - intros [Hx Hf]. exists x. split; [apply in_seq; lia|]. rewrite Hf. left; auto.
Qed.

Lemma pairs_fset : forall n f i j, (i < n)%nat -> f i = None ->
  Permutation (pairs n (fset f i (Some j))) ((i, j) :: pairs n f).
Proof.
  intros n f i j Hi Hf. unfold pairs.
  assert (G : forall l, NoDup l -> (In i l ->
     Permutation (flat_map (fun x => match fset f i (Some j) x with Some y => [(x, y)] | None => [] end) l)
       ((i, j) :: flat_map (fun x => match f x with Some y => [(x, y)] | None => [] end) l)) /\
    (~ In i l -> flat_map (fun x => match fset f i (Some j) x with Some y => [(x, y)] | None => [] end) l =
      flat_map (fun x => match f x with Some y => [(x, y)] | None => [] end) l)).
  { induction l as [|a l IH]; intros Hnd; simpl; [split; [contradiction|auto]|].
    inversion Hnd as [|? ? Hn Hnd']; subst. destruct (IH Hnd') as [IH1 IH2]. split.
    - intros [->|Hin].
      + rewrite fset_eq, Hf. simpl. rewrite IH2 by auto. reflexivity.
      + assert (Hne : a <> i) by (intros ->; contradiction). rewrite fset_neq by auto.
        destruct (f a); simpl; [|now apply IH1].
        rewrite IH1 by auto. apply perm_swap.
    - intros H. rewrite fset_neq by (intros ->; apply H; auto). rewrite IH2; auto. }
  apply G; [apply seq_NoDup|apply in_seq; lia].
Qed.

(** ** What reduce computes *)

Definition stale_ok (m : cmat) (lim : Z) (mv : bool) : Prop :=
  (forall i j, (i < cn m)%nat -> af m i = Some j ->
     forced (cC m) (cn m) lim mv i j \/ forall i', (i' < cn m)%nat -> ~ beyond lim mv (cC m i' j)) /\
  (forall i j, (j < cn m)%nat -> ar m j = Some i -> forced (cC m) (cn m) lim mv i j) /\
  length (ired m) = length (jred m).

Lemma colc_none : forall C lim mv n j, (forall i', (i' < n)%nat -> ~ beyond lim mv (C i' j)) ->
  colc C lim mv (entries n) j = 0%nat.
Proof.
  intros C lim mv n j H. unfold colc.
  destruct (filter _ (entries n)) as [|p r] eqn:E; auto. exfalso.
  assert (Hin : In p (filter (fun p => (snd p =? j)%nat && nl C lim mv p)%bool (entries n))).
  { rewrite E. left; auto. }
  apply filter_In in Hin. destruct Hin as [H1 H2]. destruct p as [x y]. apply entries_in in H1.
  apply andb_true_iff in H2. destruct H2 as [H2 H3]. simpl in H2. apply Nat.eqb_eq in H2. subst y.
  apply nl_beyond in H3. apply (H x); tauto.
Qed.

Lemma reduce_gen : forall m lim mv, stale_ok m lim mv ->
  let n := cn m in
  exists s f r,
    reduce m lim mv = Val s /\ cn s = n /\ avail s = true /\
    (forall x y, cC s x y = clamped n lim mv (cC m) x y) /\
    (forall i j, (i < n)%nat -> f i = Some j <-> forced (cC m) n lim mv i j) /\
    (forall i j, (j < n)%nat -> r j = Some i <-> forced (cC m) n lim mv i j) /\
    ired s = ired m ++ filter (isnone f) (seq 0 n) /\
    jred s = jred m ++ filter (isnone r) (seq 0 n) /\
    length (ired s) = length (jred s) /\
    ar s = r /\
    (length (ired s) = 1%nat -> nred s = 0%nat /\
       af s = fset f (nth 0 (ired s) 0%nat) (Some (nth 0 (jred s) 0%nat))) /\
    (length (ired s) <> 1%nat -> nred s = length (ired s) /\ af s = f) /\
    (length (ired s) <> 0%nat -> forall i j, cCr s i j = cC s (nth i (ired s) 0%nat) (nth j (jred s) 0%nat)).
Proof.
  intros m lim mv (Haf & Har & Hlen) n. unfold reduce. fold n.
  set (s := fold_left (scan_entry lim mv) (entries n) _).
  assert (V : sinv (cC m) lim mv (af m) (ar m) (entries n) s) by apply scan_all.
  clearbody s.
  destruct (sift_loop s n 0 (saf s) (sar s) (ired m) (jred m)) as (f & r & E & H1 & _).
  rewrite E. clear E.
  assert (Hf : forall i j, (i < n)%nat -> f i = Some j <-> forced (cC m) n lim mv i j).
  { intros i j Hi. destruct (H1 i) as [-> _]; [lia|]. unfold keep. rewrite forced_counts. split.
    - destruct (saf s i) as [j'|] eqn:E; [|discriminate].
      destruct (Nat.eqb_spec (nj s j') 1) as [E1|E1]; [|discriminate]. intros H. injection H as <-.
      rewrite (v_nj _ _ _ _ _ _ _ V) in E1.
      destruct (v_B _ _ _ _ _ _ _ V i j' E) as [(Q1 & Q2 & Q3)|Q]; auto.
      destruct (Haf i j' Hi Q) as [Q'|Q'].
      + apply forced_counts in Q'. auto.
      + rewrite colc_none in E1 by auto. discriminate.
    - intros (Q1 & Q2 & Q3 & Q4).
      destruct (v_A _ _ _ _ _ _ _ V i j Q1 Q2 Q3 Q4) as [-> _].
      rewrite (v_nj _ _ _ _ _ _ _ V), Q4. reflexivity. }
  assert (Hr : forall i j, (j < n)%nat -> r j = Some i <-> forced (cC m) n lim mv i j).
  { intros i j Hj. destruct (H1 j) as [_ ->]; [lia|]. unfold keep. rewrite forced_counts. split.
    - destruct (sar s j) as [i'|] eqn:E; [|discriminate].
      destruct (Nat.eqb_spec (ni s i') 1) as [E1|E1]; [|discriminate]. intros H. injection H as <-.
      rewrite (v_ni _ _ _ _ _ _ _ V) in E1.
      destruct (v_B' _ _ _ _ _ _ _ V i' j E) as [(Q1 & Q2 & Q3)|Q]; auto.
      apply Har in Q; auto. apply forced_counts in Q. auto.
    - intros (Q1 & Q2 & Q3 & Q4).
      destruct (v_A _ _ _ _ _ _ _ V i j Q1 Q2 Q3 Q4) as [_ ->].
      rewrite (v_ni _ _ _ _ _ _ _ V), Q3. reflexivity. }
  assert (El : filter (isnone (keep (saf s) (nj s))) (seq 0 n) = filter (isnone f) (seq 0 n)).
  { apply filter_ext_in. intros x Hx. apply in_seq in Hx. unfold isnone at 1.
    destruct (H1 x) as [E _]; [lia|]. rewrite <- E. reflexivity. }
  assert (Er : filter (isnone (keep (sar s) (ni s))) (seq 0 n) = filter (isnone r) (seq 0 n)).
  { apply filter_ext_in. intros x Hx. apply in_seq in Hx. unfold isnone at 1.
    destruct (H1 x) as [_ E]; [lia|]. rewrite <- E. reflexivity. }
  rewrite El, Er.
  set (il := ired m ++ filter (isnone f) (seq 0 n)).
  set (jl := jred m ++ filter (isnone r) (seq 0 n)).
  assert (HD : forall x y, sC s x y = clamped n lim mv (cC m) x y).
  { intros x y. unfold clamped.
    destruct (Nat.ltb_spec x n), (Nat.ltb_spec y n); simpl.
    - apply (v_Cin _ _ _ _ _ _ _ V). apply entries_in; auto.
    - apply (v_Cout _ _ _ _ _ _ _ V). rewrite entries_in. lia.
    - apply (v_Cout _ _ _ _ _ _ _ V). rewrite entries_in. lia.
    - apply (v_Cout _ _ _ _ _ _ _ V). rewrite entries_in. lia. }
  assert (HL : length il = length jl).
  { unfold il, jl. rewrite !app_length, Hlen. f_equal.
    assert (P1 := Permutation_length (filter_split _ (isnone f) (seq 0 n))).
    assert (P2 := Permutation_length (filter_split _ (isnone r) (seq 0 n))).
    rewrite app_length in P1, P2.
    assert (P3 : Permutation (map snd (pairs n f)) (filter (fun x => negb (isnone r x)) (seq 0 n))).
    { apply NoDup_Permutation.
      - assert (G : forall ps, (forall p, In p ps -> forced (cC m) n lim mv (fst p) (snd p)) ->
          NoDup (map fst ps) -> NoDup (map snd ps)).
        { induction ps as [|p ps IH]; simpl; intros HF Hnd; constructor.
          - inversion Hnd as [|? ? Hn Hnd']; subst. intros Hin. apply in_map_iff in Hin.
            destruct Hin as (q & Eq & Hq). apply Hn. apply in_map_iff. exists q. split; auto.
            assert (F1 := HF p (or_introl eq_refl)). assert (F2 := HF q (or_intror Hq)).
            destruct (Nat.eq_dec (fst q) (fst p)); auto. exfalso.
            destruct F1 as (_ & _ & _ & _ & F1). destruct F2 as (F2 & _ & F3 & _).
            apply (F1 (fst q)); auto. rewrite <- Eq. auto.
          - inversion Hnd; subst. apply IH; auto. }
        apply G.
        + intros [x y] Hp. apply pairs_in in Hp. destruct Hp as [Hx Hp]. now apply Hf in Hp.
        + rewrite pairs_fst. apply NoDup_filter, seq_NoDup.
      - apply NoDup_filter, seq_NoDup.
      - intros y. rewrite filter_In, in_seq. split.
        + intros Hin. apply in_map_iff in Hin. destruct Hin as ([x y'] & Ey & Hp). simpl in Ey. subst y'.
          apply pairs_in in Hp. destruct Hp as [Hx Hp]. apply Hf in Hp; auto.
          assert (Hy : (y < n)%nat) by (destruct Hp as (_ & Hy & _); auto).
          split; [lia|]. apply Hr in Hp; auto. unfold isnone. now rewrite Hp.
        + intros [Hy H]. assert (Hy' : (y < n)%nat) by lia. unfold isnone in H.
          destruct (r y) as [x|] eqn:E; [|discriminate]. apply Hr in E; auto.
          apply in_map_iff. exists (x, y). split; auto. apply pairs_in.
          assert (Hx : (x < n)%nat) by (destruct E; auto). split; auto. now apply Hf. }
    apply Permutation_length in P3. rewrite map_length in P3.
    assert (P4 : length (map fst (pairs n f)) = length (pairs n f)) by apply map_length.
    rewrite pairs_fst in P4. lia. }
  rewrite HL, Nat.eqb_refl. rewrite <- HL.
  destruct (Nat.eqb_spec (length il) 1) as [E1|E1].
  - eexists. exists f, r. split; [reflexivity|]. simpl.
    split; [reflexivity|]. split; [reflexivity|]. split; [exact HD|]. split; [exact Hf|]. split; [exact Hr|].
    split; [reflexivity|]. split; [reflexivity|]. split; [exact HL|]. split; [reflexivity|].
    split; [auto|]. split; [contradiction|]. intros H i j. rewrite E1. reflexivity.
  - eexists. exists f, r. split; [reflexivity|]. simpl.
    split; [reflexivity|]. split; [reflexivity|]. split; [exact HD|]. split; [exact Hf|]. split; [exact Hr|].
    split; [reflexivity|]. split; [reflexivity|]. split; [exact HL|]. split; [reflexivity|].
    split; [contradiction|]. split; [auto|]. intros H i j.
    apply Nat.eqb_neq in H. rewrite H. reflexivity.
Qed.

(** ** Exchange argument *)

Section Exchange.
Variable D : mat.
Variable n : nat.
Variable mv : bool.

Definition respects (ps : list (nat * nat)) (b : list nat) : Prop :=
  forall x y, In (x, y) ps -> nth_error b x = Some y.

(** Every assignment can be improved to one containing the pairs. *)
Definition dominates (ps : list (nat * nat)) : Prop :=
  forall b, assignment n b -> exists b', assignment n b' /\ respects ps b' /\
    better mv (score D b') (score D b).

Lemma better_refl : forall u, better mv u u.
Proof. intros. unfold better. destruct mv; lia. Qed.

Lemma better_trans : forall u v w, better mv u v -> better mv v w -> better mv u w.
Proof. unfold better. destruct mv; lia. Qed.

Lemma nth_error_nodup : forall (b : list nat) x x' y, NoDup b ->
  nth_error b x = Some y -> nth_error b x' = Some y -> x = x'.
Proof.
  intros b x x' y Hnd H1 H2. apply (proj1 (NoDup_nth_error b) Hnd).
  - apply nth_error_Some. congruence.
  - congruence.
Qed.

Lemma exchange : forall lim ps,
  (forall x y, (x < n)%nat -> (y < n)%nat -> better mv (D x y) lim) ->
  (forall i j, In (i, j) ps -> (i < n)%nat /\ (j < n)%nat /\
     (forall y, (y < n)%nat -> y <> j -> D i y = lim) /\ (forall x, (x < n)%nat -> x <> i -> D x j = lim)) ->
  (forall i j i' j', In (i, j) ps -> In (i', j') ps -> i = i' <-> j = j') ->
  dominates ps.
Proof.
  intros lim ps HD. induction ps as [|[i j] ps IH]; intros Hps Hinj b Hb.
  - exists b. split; auto. split; [intros x y []|apply better_refl].
  - destruct IH with (b := b) as (b1 & Hb1 & R1 & B1); auto.
    { intros; apply Hps; right; auto. }
    { intros i1 j1 i2 j2 H1 H2. apply Hinj; right; auto. }
    destruct (Hps i j (or_introl eq_refl)) as (Hi & Hj & HR & HC).
    assert (Hl := assignment_length n b1 Hb1). assert (Hnd := assignment_nodup n b1 Hb1).
    destruct (nth_error b1 i) as [k|] eqn:Ek.
    2:{ apply nth_error_None in Ek. lia. }
    assert (Hk : (k < n)%nat) by (apply (assignment_bound n b1); auto; now apply nth_error_In in Ek).
    destruct (Nat.eq_dec j k) as [->|Hjk].
    + exists b1. split; auto. split; auto. intros x y [E|Hin]; [injection E as <- <-; auto|auto].
    + destruct (In_nth_error b1 j (assignment_in n b1 j Hb1 Hj)) as [i' Ei'].
      assert (Hi' : (i' < n)%nat) by (apply nth_error_lt in Ei'; lia).
      assert (Hii : i' <> i) by congruence.
      exists (map (tau j k) b1). split; [now apply tau_assignment|]. split.
      * intros x y [E|Hin].
        -- injection E as <- <-. rewrite nth_error_map, Ek. simpl. now rewrite tau_r.
        -- assert (Hx := R1 x y Hin). rewrite nth_error_map, Hx. simpl.
           assert (Hxy := Hinj i j x y (or_introl eq_refl) (or_intror Hin)).
           assert (y = j \/ y <> j) as [->|Hyj] by lia.
           ++ assert (i = x) as <- by (apply Hxy; auto). congruence.
           ++ rewrite tau_other; auto. intros ->.
              assert (x = i) by (apply (nth_error_nodup b1 x i k); auto). subst x.
              apply Hyj. symmetry. now apply Hxy.
      * apply better_trans with (v := score D b1); auto.
        rewrite (tau_score D b1 j k i i') by auto.
        rewrite (HR k) by auto. rewrite (HC i') by auto.
        assert (Q1 := HD i j Hi Hj). assert (Q2 := HD i' k Hi' Hk).
        revert Q1 Q2. clear. unfold better. destruct mv; lia.
Qed.

End Exchange.
