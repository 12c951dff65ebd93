(** Proofs about CostMatrix::reduce, part 4: the theorems. *)
From Coq Require Import ZArith List Bool Arith Lia Permutation.
From Verif Require Import Base ListUtil HungarianModel AssignSpec AssignLemmas HungarianProofs HungarianProofs3
  ReduceModel ReduceSpec ReduceProofs ReduceProofs2 ReduceProofs3.
Import ListNotations.
Local Open Scope Z_scope.

Lemma total_perm : forall D l l', Permutation l l' -> total D l = total D l'.
Proof. unfold total. induction 1; simpl; lia. Qed.

Lemma total_ext : forall D D' l, (forall x y, D x y = D' x y) -> total D l = total D' l.
Proof. induction l; simpl; intros; auto. rewrite H, IHl; auto. Qed.

Lemma fixed_score_total : forall D f n, fixed_score D f (seq 0 n) = total D (pairs n f).
Proof.
  intros. unfold pairs. induction (seq 0 n) as [|x l IH]; simpl; auto.
  rewrite IH. destruct (f x); simpl; auto.
Qed.

Lemma fresh_stale : forall C n lim mv, stale_ok (cm_new C n) lim mv.
Proof. intros. split; [|split]; simpl; intros; try discriminate; auto. Qed.

Section Fixed.
Variable C : mat.
Variable n : nat.
Variable lim : Z.
Variable mv : bool.
Variable f r : nat -> option nat.
Hypothesis Hf : forall i j, (i < n)%nat -> f i = Some j <-> forced C n lim mv i j.
Hypothesis Hr : forall i j, (j < n)%nat -> r j = Some i <-> forced C n lim mv i j.
Let D := clamped n lim mv C.
Let il := filter (isnone f) (seq 0 n).
Let jl := filter (isnone r) (seq 0 n).

Lemma forced_inj : forall i j i' j', forced C n lim mv i j -> forced C n lim mv i' j' -> i = i' <-> j = j'.
Proof.
  intros i j i' j' (A1 & A2 & A3 & A4 & A5) (B1 & B2 & B3 & B4 & B5). split; intros ->.
  - destruct (Nat.eq_dec j j'); auto. exfalso. apply (A4 j'); auto.
  - destruct (Nat.eq_dec i i'); auto. exfalso. apply (A5 i'); auto.
Qed.

Lemma pairs_rows : Permutation (map fst (pairs n f) ++ il) (seq 0 n).
Proof. rewrite pairs_fst. apply filter_split. Qed.

Lemma pairs_cols : Permutation (map snd (pairs n f) ++ jl) (seq 0 n).
Proof.
  rewrite <- (filter_split _ (isnone r) (seq 0 n)). apply Permutation_app_tail.
  apply NoDup_Permutation.
  - assert (G : forall ps, (forall p, In p ps -> forced C n lim mv (fst p) (snd p)) ->
      NoDup (map fst ps) -> NoDup (map snd ps)).
    { induction ps as [|p ps IH]; simpl; intros HF Hnd; constructor.
      - inversion Hnd as [|? ? Hn Hnd']; subst. intros Hin. apply in_map_iff in Hin.
        destruct Hin as (q & Eq & Hq). apply Hn. apply in_map_iff. exists q. split; auto.
        apply (forced_inj (fst q) (snd q) (fst p) (snd p)); auto.
      - inversion Hnd; subst. apply IH; auto. }
    apply G.
    + intros [x y] Hp. apply pairs_in in Hp. destruct Hp as [Hx Hp]. now apply Hf in Hp.
    + rewrite pairs_fst. apply NoDup_filter, seq_NoDup.
  - apply NoDup_filter, seq_NoDup.
  - intros y. rewrite filter_In, in_seq. split.
    + intros Hin. apply in_map_iff in Hin. destruct Hin as ([x y'] & Ey & Hp). simpl in Ey. subst y'.
      apply pairs_in in Hp. destruct Hp as [Hx Hp]. apply Hf in Hp; auto.
      assert (Hy : (y < n)%nat) by (destruct Hp as (_ & Hy & _); auto).
      split; [lia|]. apply Hr in Hp; auto. unfold isnone. now rewrite Hp.
    + intros [Hy H]. assert (Hy' : (y < n)%nat) by lia. unfold isnone in H.
      destruct (r y) as [x|] eqn:E; [|discriminate]. apply Hr in E; auto.
      apply in_map_iff. exists (x, y). split; auto. apply pairs_in.
      assert (Hx : (x < n)%nat) by (destruct E; auto). split; auto. now apply Hf.
Qed.

Lemma D_in : forall x y, (x < n)%nat -> (y < n)%nat -> D x y = clamp lim mv (C x y).
Proof. intros. unfold D, clamped. apply Nat.ltb_lt in H, H0. now rewrite H, H0. Qed.

Lemma clamp_better : forall v, better mv (clamp lim mv v) lim.
Proof. intros. unfold better, clamp. destruct mv; lia. Qed.

Lemma clamp_not_beyond : forall v, ~ beyond lim mv v -> clamp lim mv v = lim.
Proof. unfold beyond, clamp. destruct mv; lia. Qed.

Lemma forced_dominates : dominates D n mv (pairs n f).
Proof.
  apply exchange with (lim := lim).
  - intros x y Hx Hy. rewrite D_in by auto. apply clamp_better.
  - intros i j Hp. apply pairs_in in Hp. destruct Hp as [Hi Hp]. apply Hf in Hp; auto.
    destruct Hp as (_ & Hj & _ & H1 & H2). split; auto. split; auto. split.
    + intros y Hy Hne. rewrite D_in by auto. apply clamp_not_beyond. auto.
    + intros x Hx Hne. rewrite D_in by auto. apply clamp_not_beyond. auto.
  - intros i j i' j' H1 H2. apply pairs_in in H1, H2. destruct H1 as [H1 H1'], H2 as [H2 H2'].
    apply Hf in H1', H2'; auto. now apply forced_inj.
Qed.

(** One row and one column left over: they are paired. *)
Lemma fold_last : forall i0 j0, il = [i0] -> jl = [j0] ->
  let f1 := fset f i0 (Some j0) in
  (i0 < n)%nat /\ f i0 = None /\ Permutation (pairs n f1) ((i0, j0) :: pairs n f) /\
  dominates D n mv (pairs n f1).
Proof.
  intros i0 j0 Ei Ej f1.
  assert (Hin : In i0 il) by (rewrite Ei; left; auto).
  apply filter_In in Hin. destruct Hin as [Hi0 Hnone]. apply in_seq in Hi0.
  assert (Hf0 : f i0 = None) by (unfold isnone in Hnone; destruct (f i0); [discriminate|auto]).
  assert (Hi : (i0 < n)%nat) by lia.
  assert (HP := pairs_fset n f i0 j0 Hi Hf0).
  split; auto. split; auto. split; auto.
  intros b Hb. destruct (forced_dominates b Hb) as (b' & Hb' & R & B).
  exists b'. split; auto. split; auto. intros x y Hp.
  apply (Permutation_in _ HP) in Hp. destruct Hp as [E|Hp]; [|auto].
  injection E as <- <-.
  assert (Hl := assignment_length n b' Hb'). assert (Hnd := assignment_nodup n b' Hb').
  destruct (nth_error b' i0) as [q|] eqn:Eq; [|apply nth_error_None in Eq; lia].
  assert (Hq : In q (map snd (pairs n f) ++ jl)).
  { apply (Permutation_in _ (Permutation_sym pairs_cols)). apply in_seq.
    assert (q < n)%nat by (apply (assignment_bound n b'); auto; now apply nth_error_In in Eq). lia. }
  rewrite Ej in Hq. apply in_app_iff in Hq. destruct Hq as [Hq|[<-|[]]]; auto.
  exfalso. apply in_map_iff in Hq. destruct Hq as ([x y] & E & Hp). simpl in E. subst y.
  assert (Hx := R x q Hp). assert (x = i0) by (apply (nth_error_nodup b' x i0 q); auto). subst x.
  apply pairs_in in Hp. destruct Hp as [_ Hp]. congruence.
Qed.

End Fixed.

(** Result of reduce on a fresh object. *)
Lemma reduce_fresh : forall C n lim mv, exists m Cr nr f fs imap jmap,
  reduce (cm_new C n) lim mv = Val m /\
  cn m = n /\
  getReduced m = Some (Cr, nr, f, fs, imap, jmap) /\
  (forall x y, cC m x y = clamped n lim mv C x y) /\
  splits (clamped n lim mv C) n f fs nr Cr imap jmap /\
  dominates (clamped n lim mv C) n mv (pairs n f) /\
  (forall i j, forced C n lim mv i j -> f i = Some j) /\
  (nr <> 0%nat -> forall i j, (i < n)%nat -> f i = Some j -> forced C n lim mv i j) /\
  nr <> 1%nat.
Proof.
  intros C n lim mv.
  destruct (reduce_gen (cm_new C n) lim mv (fresh_stale C n lim mv))
    as (m & f & r & E & Hn & Hav & HD & Hf & Hr & Hil & Hjl & Hlen & Har & H1 & Hn1 & HCr).
  simpl in Hil, Hjl, Hn, Hf, Hr, HD.
  destruct (Nat.eq_dec (length (ired m)) 1) as [El|El].
  - destruct (H1 El) as [Hnr Haf].
    destruct (ired m) as [|i0 [|? ?]] eqn:Ei; try discriminate.
    destruct (jred m) as [|j0 [|? ?]] eqn:Ej; try discriminate. simpl in Haf.
    destruct (fold_last C n lim mv f r Hf Hr i0 j0 (eq_sym Hil) (eq_sym Hjl)) as (Hi & Hfi & HP & Hdom).
    exists m, (cCr m), 0%nat, (af m), (fixed_score (cC m) (af m) (seq 0 n)), [], [].
    split; [exact E|]. split; [exact Hn|]. split.
    { unfold getReduced. rewrite Hav, Hnr, Hn. reflexivity. }
    split; [exact HD|].
    assert (PR := pairs_rows n f). assert (PC := pairs_cols C n lim mv f r Hf Hr).
    rewrite <- Hil in PR. rewrite <- Hjl in PC.
    split; [|split; [|split; [|split]]].
    + split; auto. split; auto. rewrite Haf, !app_nil_r. split; [|split; [|split]].
      * rewrite (Permutation_map fst HP). simpl. rewrite <- PR. apply Permutation_cons_append.
      * rewrite (Permutation_map snd HP). simpl. rewrite <- PC. apply Permutation_cons_append.
      * rewrite fixed_score_total. apply total_ext. exact HD.
      * intros i j x y Hx. destruct i; discriminate.
    + rewrite Haf. exact Hdom.
    + intros i j F. rewrite Haf. rewrite fset_neq; [apply Hf; auto; destruct F; auto|].
      intros ->. apply Hf in F; auto. congruence.
    + congruence.
    + discriminate.
  - destruct (Hn1 El) as [Hnr Haf].
    exists m, (cCr m), (length (ired m)), f, (fixed_score (cC m) f (seq 0 n)), (ired m), (jred m).
    split; [exact E|]. split; [exact Hn|]. split.
    { unfold getReduced. rewrite Hav, Hnr, Hn, Haf. rewrite firstn_all.
      rewrite Hlen. rewrite firstn_all. reflexivity. }
    split; [exact HD|].
    assert (PR := pairs_rows n f). assert (PC := pairs_cols C n lim mv f r Hf Hr).
    rewrite <- Hil in PR. rewrite <- Hjl in PC.
    split; [|split; [|split; [|split]]].
    + split; auto. split; auto. split; [exact PR|]. split; [exact PC|]. split.
      * rewrite fixed_score_total. apply total_ext. exact HD.
      * intros i j x y Hx Hy. rewrite HCr.
        -- rewrite (nth_error_nth _ _ _ Hx), (nth_error_nth _ _ _ Hy). apply HD.
        -- apply nth_error_lt in Hx. lia.
    + apply (forced_dominates C n lim mv f r Hf Hr).
    + intros i j F. apply Hf; auto. destruct F; auto.
    + intros _ i j Hi. apply Hf; auto.
    + exact El.
Qed.

(** C13 *)
Theorem reduce_ok : forall C n lim mv, exists m Cr nr f fs imap jmap,
  reduce (cm_new C n) lim mv = Val m /\
  getReduced m = Some (Cr, nr, f, fs, imap, jmap) /\
  (forall x y, cC m x y = clamped n lim mv C x y) /\
  (forall i j, forced C n lim mv i j -> f i = Some j) /\
  (nr <> 0%nat -> forall i j, (i < n)%nat -> f i = Some j -> forced C n lim mv i j) /\
  splits (clamped n lim mv C) n f fs nr Cr imap jmap /\
  forall r, assignment nr r -> exists a,
    completes n f imap jmap r a /\ assignment n a /\
    score (clamped n lim mv C) a = fs + score Cr r /\
    (optimal mv nr Cr r -> optimal mv n (clamped n lim mv C) a).
Proof.
  intros C n lim mv.
  destruct (reduce_fresh C n lim mv) as (m & Cr & nr & f & fs & imap & jmap & E & Hn & G & HD & S & Dm & F1 & F2 & _).
  exists m, Cr, nr, f, fs, imap, jmap. split; [exact E|]. split; [exact G|]. split; [exact HD|].
  split; [exact F1|]. split; [exact F2|]. split; [exact S|].
  intros r Hr. destruct (complete_ok _ _ _ _ _ _ _ _ S r Hr) as (a & _ & Hc & Ha & Hs).
  exists a. split; auto. split; auto. split; auto. intros Hopt.
  now apply (optimal_lift _ _ _ _ _ _ _ _ S mv r a).
Qed.

(** C12 *)
Theorem run_cm_unreduced : forall C n mx, exists a,
  run_cm (cm_new C n) mx = Val (true, Some (map Some a, score C a)) /\ optimal mx n C a.
Proof.
  intros C n mx. unfold run_cm. simpl.
  destruct (hungarian_optimal C n mx) as (C' & a & E & H). rewrite E. simpl.
  exists a. auto.
Qed.

Theorem run_cm_reduced : forall C n lim mv m, reduce (cm_new C n) lim mv = Val m ->
  exists a, run_cm m mv = Val (Nat.eqb (nred m) 0, Some (map Some a, score (clamped n lim mv C) a)) /\
    optimal mv n (clamped n lim mv C) a.
Proof.
  intros C n lim mv m0 Hm0.
  destruct (reduce_fresh C n lim mv) as (m & Cr & nr & f & fs & imap & jmap & E & Hn & G & HD & S & Dm & _ & _ & Hnr).
  rewrite E in Hm0. injection Hm0 as <-.
  unfold run_cm. rewrite G, Hn.
  assert (En : nred m = nr).
  { unfold getReduced in G. destruct (avail m); [|discriminate]. now injection G. }
  rewrite En.
  destruct (Nat.ltb_spec 1 nr) as [L|L].
  - destruct (hungarian_optimal Cr nr mv) as (C' & r & Eh & Hopt). rewrite Eh. cbn [obind snd].
    destruct (complete_ok _ _ _ _ _ _ _ _ S r (proj1 Hopt)) as (a & Hw & Hc & Ha & Hs).
    exists a. split.
    + rewrite Hw, <- Hs. destruct (Nat.eqb_spec nr 0); [lia|reflexivity].
    + now apply (optimal_lift _ _ _ _ _ _ _ _ S mv r a).
  - assert (nr = 0%nat) as -> by lia. simpl.
    assert (Hr : assignment 0 []) by constructor.
    destruct (complete_ok _ _ _ _ _ _ _ _ S [] Hr) as (a & Hw & Hc & Ha & Hs).
    exists a. split.
    + change (map f (seq 0 n)) with (map (write_back f imap jmap []) (seq 0 n)).
      rewrite Hw, Hs. simpl. rewrite Z.add_0_r. reflexivity.
    + apply (optimal_lift _ _ _ _ _ _ _ _ S mv [] a); auto. split; auto.
      intros b Hb. apply assignment_length in Hb. destruct b; [|discriminate].
      unfold better. destruct mv; lia.
Qed.

(** C14: the second call. *)
Lemma beyond_clamp : forall lim mv v, beyond lim mv (clamp lim mv v) <-> beyond lim mv v.
Proof. intros. unfold beyond, clamp. destruct mv; lia. Qed.

Lemma forced_clamped : forall C n lim mv i j,
  forced (clamped n lim mv C) n lim mv i j <-> forced C n lim mv i j.
Proof.
  intros. unfold forced.
  assert (G : forall x y, (x < n)%nat -> (y < n)%nat ->
     beyond lim mv (clamped n lim mv C x y) <-> beyond lim mv (C x y)).
  { intros x y Hx Hy. rewrite (D_in C n lim mv) by auto. apply beyond_clamp. }
  split; intros (A1 & A2 & A3 & A4 & A5); (split; [auto|split; [auto|split; [apply G; auto|split]]]).
  - intros j' Hj' Hne H. apply (A4 j'); auto. apply G; auto.
  - intros j' Hj' Hne H. apply (A5 j'); auto. apply G; auto.
  - intros j' Hj' Hne H. apply (A4 j'); auto. apply G; auto.
  - intros j' Hj' Hne H. apply (A5 j'); auto. apply G; auto.
Qed.

Lemma forced_ext : forall C C' n lim mv i j, (forall x y, C x y = C' x y) ->
  forced C n lim mv i j <-> forced C' n lim mv i j.
Proof.
  intros C C' n lim mv i j H. unfold forced. rewrite H.
  split; intros (A1 & A2 & A3 & A4 & A5); (split; [auto|split; [auto|split; [auto|split]]]); intros z Hz Hne.
  - rewrite <- H. auto.
  - rewrite <- H. auto.
  - rewrite H. auto.
  - rewrite H. auto.
Qed.

Theorem reduce_twice : forall C n lim mv m1, reduce (cm_new C n) lim mv = Val m1 ->
  exists m2, reduce m1 lim mv = Val m2 /\
    (forall x y, cC m2 x y = cC m1 x y) /\
    ired m2 = ired m1 ++ ired m1 /\ jred m2 = jred m1 ++ jred m1 /\
    nred m2 = (2 * length (ired m1))%nat.
Proof.
  intros C n lim mv m1 E1.
  destruct (reduce_gen (cm_new C n) lim mv (fresh_stale C n lim mv))
    as (m & f & r & E & Hn & Hav & HD & Hf & Hr & Hil & Hjl & Hlen & Har & H1 & Hn1 & HCr).
  rewrite E1 in E. injection E as <-. simpl in Hil, Hjl, Hn, Hf, Hr, HD.
  assert (HF : forall i j, forced (cC m1) n lim mv i j <-> forced C n lim mv i j).
  { intros i j. rewrite (forced_ext _ _ n lim mv i j HD). apply forced_clamped. }
  assert (Hst : stale_ok m1 lim mv).
  { split; [|split]; rewrite ?Hn; auto.
    - intros i j Hi Hij. destruct (Nat.eq_dec (length (ired m1)) 1) as [El|El].
      + destruct (H1 El) as [_ Haf]. rewrite Haf in Hij.
        destruct (ired m1) as [|i0 [|? ?]] eqn:Ei; try discriminate.
        destruct (jred m1) as [|j0 [|? ?]] eqn:Ej; try discriminate. simpl in Hij.
        destruct (fset_cases _ f i0 (Some j0) i) as [[-> Ev]|[Hne Ev]]; rewrite Ev in Hij.
        * injection Hij as <-. right.
          assert (Hin : In i0 (filter (isnone f) (seq 0 n))) by (rewrite <- Hil; left; auto).
          assert (Hjn : In j0 (filter (isnone r) (seq 0 n))) by (rewrite <- Hjl; left; auto).
          apply filter_In in Hin, Hjn. destruct Hin as [_ Hf0], Hjn as [Hj0 Hr0]. apply in_seq in Hj0.
          unfold isnone in Hf0, Hr0.
          (* every other row is matched elsewhere, so column j0 has no entry beyond the limit *)
          assert (Hcol : forall i', (i' < n)%nat -> i' <> i0 -> ~ beyond lim mv (C i' j0)).
          { intros i' Hi' Hne Hb. destruct (f i') as [j'|] eqn:Ef.
            - apply Hf in Ef; auto. destruct Ef as (_ & Hj' & Hb' & Ho & _).
              destruct (Nat.eq_dec j0 j') as [->|Hjj].
              + assert (Hfc : f i' = Some j'); [|apply Hf in Hfc; auto; apply Hr in Hfc; [|lia];
                  rewrite Hfc in Hr0; discriminate].
                apply Hf; auto. split; auto. split; auto. split; auto. split; auto.
                intros i2 Hi2 Hne2 Hb2.
                destruct (Nat.eq_dec i2 i0) as [->|Hi20].
                * clear Hne2.
                  (* row i0 *)
                  destruct (f i') as [q|] eqn:Ef2.
                  -- assert (Ef2' := Ef2). apply Hf in Ef2'; auto. destruct Ef2' as (_ & _ & _ & Ho2 & Hc2).
                     destruct (Nat.eq_dec q j') as [->|Hq].
                     ++ apply (Hc2 i0); auto.
                     ++ apply (Ho2 j'); auto.
                  -- assert (Hin2 : In i' (filter (isnone f) (seq 0 n))).
                     { apply filter_In. split; [apply in_seq; lia|]. unfold isnone. now rewrite Ef2. }
                     rewrite <- Hil in Hin2. destruct Hin2 as [<-|[]]. contradiction.
                * destruct (f i2) as [q|] eqn:Ef2.
                  -- assert (Ef2' := Ef2). apply Hf in Ef2'; auto. destruct Ef2' as (_ & _ & _ & Ho2 & Hc2).
                     destruct (Nat.eq_dec q j') as [->|Hq].
                     ++ apply (Hc2 i'); auto.
                     ++ apply (Ho2 j'); auto.
                  -- assert (Hin2 : In i2 (filter (isnone f) (seq 0 n))).
                     { apply filter_In. split; [apply in_seq; lia|]. unfold isnone. now rewrite Ef2. }
                     rewrite <- Hil in Hin2. destruct Hin2 as [<-|[]]. contradiction.
              + apply (Ho j0); auto; lia.
            - assert (Hin2 : In i' (filter (isnone f) (seq 0 n))).
              { apply filter_In. split; [apply in_seq; lia|]. unfold isnone. now rewrite Ef. }
              rewrite <- Hil in Hin2. destruct Hin2 as [<-|[]]. contradiction. }
          intros i' Hi'. rewrite HD. rewrite (D_in C n lim mv) by (auto; lia). rewrite beyond_clamp.
          destruct (Nat.eq_dec i' i0) as [->|Hne]; [|now apply Hcol]. intros Hb.
          (* then (i0, j0) would be forced *)
          assert (Fc : forced C n lim mv i0 j0).
          { split; auto. split; [lia|]. split; auto. split; auto.
            intros j' Hj' Hne Hb'. destruct (r j') as [i2|] eqn:Er.
            - assert (Er' := Er). apply Hr in Er'; auto. destruct Er' as (_ & _ & _ & Ho2 & Hc2).
              destruct (Nat.eq_dec i2 i0) as [->|Hi2].
              + assert (Hfi : f i0 = Some j') by (apply Hf; auto; now apply Hr). rewrite Hfi in Hf0. discriminate.
              + apply (Hc2 i0); auto.
            - assert (Hin2 : In j' (filter (isnone r) (seq 0 n))).
              { apply filter_In. split; [apply in_seq; lia|]. unfold isnone. now rewrite Er. }
              rewrite <- Hjl in Hin2. destruct Hin2 as [<-|[]]. contradiction. }
          apply Hf in Fc; auto. rewrite Fc in Hf0. discriminate.
        * left. apply HF. now apply Hf.
      + destruct (Hn1 El) as [_ Haf]. rewrite Haf in Hij. left. apply HF. now apply Hf.
    - intros i j Hj Hij. rewrite Har in Hij. apply HF. now apply Hr. }
  destruct (reduce_gen m1 lim mv Hst)
    as (m2 & f2 & r2 & E2 & Hn2 & Hav2 & HD2 & Hf2 & Hr2 & Hil2 & Hjl2 & Hlen2 & Har2 & H12 & Hn12 & HCr2).
  rewrite Hn in *.
  assert (Ef : filter (isnone f2) (seq 0 n) = filter (isnone f) (seq 0 n)).
  { apply filter_ext_in. intros x Hx. apply in_seq in Hx. unfold isnone.
    destruct (f2 x) as [y|] eqn:Ex.
    - apply Hf2 in Ex; [|lia]. apply HF in Ex. apply Hf in Ex; [|lia]. now rewrite Ex.
    - destruct (f x) as [y|] eqn:Ey; auto. apply Hf in Ey; [|lia]. apply HF in Ey. apply Hf2 in Ey; [|lia].
      congruence. }
  assert (Er : filter (isnone r2) (seq 0 n) = filter (isnone r) (seq 0 n)).
  { apply filter_ext_in. intros x Hx. apply in_seq in Hx. unfold isnone.
    destruct (r2 x) as [y|] eqn:Ex.
    - apply Hr2 in Ex; [|lia]. apply HF in Ex. apply Hr in Ex; [|lia]. now rewrite Ex.
    - destruct (r x) as [y|] eqn:Ey; auto. apply Hr in Ey; [|lia]. apply HF in Ey. apply Hr2 in Ey; [|lia].
      congruence. }
  rewrite Ef, <- Hil in Hil2. rewrite Er, <- Hjl in Hjl2.
  exists m2. split; [exact E2|]. split; [|split; [exact Hil2|split; [exact Hjl2|]]].
  - intros x y. rewrite HD2. unfold clamped at 1. rewrite HD. unfold clamped.
    destruct (Nat.ltb x n && Nat.ltb y n)%bool eqn:Eb; auto.
    unfold clamp. destruct mv; lia.
  - assert (Hl2 : length (ired m2) = (2 * length (ired m1))%nat) by (rewrite Hil2, app_length; lia).
    destruct (Hn12 ltac:(lia)) as [H _]. lia.
Qed.

Theorem reduce_twice_exact : forall C n lim mv, exists m1 m2,
  reduce (cm_new C n) lim mv = Val m1 /\ reduce m1 lim mv = Val m2 /\
  (forall x y, cC m2 x y = cC m1 x y) /\
  (nred m2 = nred m1 <-> forall i, (i < n)%nat -> exists j, forced C n lim mv i j) /\
  (nred m1 <> 0%nat -> nred m2 = (2 * nred m1)%nat).
Proof.
  intros C n lim mv.
  destruct (reduce_gen (cm_new C n) lim mv (fresh_stale C n lim mv))
    as (m & f & r & E & Hn & Hav & HD & Hf & Hr & Hil & Hjl & Hlen & Har & H1 & Hn1 & HCr).
  destruct (reduce_twice C n lim mv m E) as (m2 & E2 & HC & Hi2 & Hj2 & Hn2).
  exists m, m2. split; [exact E|]. split; [exact E2|]. split; [exact HC|]. simpl in Hil, Hf, Hr.
  assert (Hz : length (ired m) = 0%nat <-> forall i, (i < n)%nat -> exists j, forced C n lim mv i j).
  { rewrite Hil. split.
    - intros L i Hi. destruct (f i) as [j|] eqn:Ef; [exists j; now apply Hf|].
      assert (Hin : In i (filter (isnone f) (seq 0 n))).
      { apply filter_In. split; [apply in_seq; lia|]. unfold isnone. now rewrite Ef. }
      destruct (filter (isnone f) (seq 0 n)); [destruct Hin|discriminate].
    - intros H. destruct (filter (isnone f) (seq 0 n)) as [|i l] eqn:El; auto. exfalso.
      assert (Hin : In i (filter (isnone f) (seq 0 n))) by (rewrite El; left; auto).
      apply filter_In in Hin. destruct Hin as [Hi Hf0]. apply in_seq in Hi.
      destruct (H i ltac:(lia)) as [j Hj]. apply Hf in Hj; [|lia]. unfold isnone in Hf0. rewrite Hj in Hf0.
      discriminate. }
  rewrite <- Hz. destruct (Nat.eq_dec (length (ired m)) 1) as [El|El].
  - destruct (H1 El) as [Hnr _]. split; [split; intros; lia|]. intros; lia.
  - destruct (Hn1 El) as [Hnr _]. split; [split; intros; lia|]. intros; lia.
Qed.
