From Coq Require Import QArith ZArith List Bool Arith Permutation Lia.
From Verif Require Import Base ListUtil GMModel GMSpec GMProofs GMProofs2 TracksModel TracksSpec TracksProofs.
Import ListNotations.
Local Open Scope nat_scope.

Lemma compact_loop_app : forall zs1 zs2 h ts nM nZ u,
  compact_loop h ts nM nZ (zs1 ++ zs2) u =
  let* r := compact_loop h ts nM nZ zs1 u in
  compact_loop (fst (fst r)) (snd (fst r)) nM nZ zs2 (snd r).
Proof.
  induction zs1 as [|z zs1 IH]; intros; simpl; auto.
  destruct (nth_error ts (nM + z)); simpl; auto.
  destruct (Qeq_bool (tp t) 0); auto.
  destruct (copy_at h ts (nM + nZ - 1 - length u) (nM + z)); simpl; auto.
Qed.

Lemma zcount_app : forall a b, zcount (a ++ b) = zcount a + zcount b.
Proof. intros. unfold zcount. now rewrite filter_app, app_length. Qed.

Lemma zcount_le : forall a, zcount a <= length a.
Proof. intros. unfold zcount. induction a; simpl; auto. destruct (zeroP a); simpl; lia. Qed.

Lemma zeros_from_app : forall A B z, zeros_from z (A ++ B) = zeros_from z A ++ zeros_from (z + length A) B.
Proof.
  induction A as [|a A IH]; intros; simpl. now rewrite Nat.add_0_r.
  rewrite IH. replace (S z + length A) with (z + S (length A)) by lia. now destruct (zeroP a).
Qed.

Lemma zeros_len : forall A z, length (zeros_from z A) = zcount A.
Proof. unfold zcount. induction A as [|a A IH]; intros; simpl; auto. destruct (zeroP a); simpl; auto. Qed.

Lemma fill_snoc : forall A x src, zcount A < length src \/ zeroP x = false ->
  fill (A ++ [x]) src = fill A src ++ [if zeroP x then nth (zcount A) src x else x].
Proof.
  unfold zcount. induction A as [|a A IH]; intros x src H; simpl.
  - simpl in H. destruct (zeroP x) eqn:E; simpl; auto.
    destruct src; simpl; auto.
  - simpl in H. destruct (zeroP a) eqn:E; simpl in *.
    + destruct src as [|s src]; simpl.
      * destruct H as [H|H]; [simpl in H; lia|]. rewrite IH by auto. rewrite H. reflexivity.
      * rewrite IH. reflexivity. simpl in H. destruct H; auto. left; lia.
    + rewrite IH; auto.
Qed.

Lemma fill_len : forall A src, length (fill A src) = length A.
Proof. induction A as [|a A IH]; intros; simpl; auto. destruct (zeroP a); [destruct src|]; simpl; now rewrite IH. Qed.

Lemma fill_perm : forall A src, zcount A <= length src ->
  Permutation (fill A src) (filter (fun v => negb (zeroP v)) A ++ firstn (zcount A) src).
Proof.
  unfold zcount. induction A as [|a A IH]; intros src H; simpl in *; auto.
  destruct (zeroP a) eqn:E; simpl in *.
  - destruct src as [|s src]; simpl in *; [lia|]. rewrite <- Permutation_middle. constructor. apply IH. lia.
  - constructor. apply IH. lia.
Qed.

(** One iteration on an unvisited position. *)
Lemma nth_mid : forall (A : list tview) x B, nth_error (A ++ x :: B) (length A) = Some x.
Proof. intros. rewrite nth_error_app2, Nat.sub_diag by lia. reflexivity. Qed.

(** Phase 1: the positions that survive the final resize. *)
Lemma phase1 : forall F nM nZ (Pre Y X : list tview) h ts, tgood h ts F ->
  tviews h ts = Pre ++ X ++ Y -> length Pre = nM -> nZ = length X + length Y ->
  zcount X <= length Y -> 
  exists h' ts', compact_loop h ts nM nZ (seq 0 (length X)) [] = Val (h', ts', zeros X) /\
    tgood h' ts' F /\ intact h h' F /\ tviews h' ts' = Pre ++ fill X (rev Y) ++ Y.
Proof.
  intros F nM nZ Pre Y X. intros h ts Hg HV HP HN HC.
  assert (H : forall X1 X2, X = X1 ++ X2 ->
    exists h' ts', compact_loop h ts nM nZ (seq 0 (length X1)) [] = Val (h', ts', zeros X1) /\
    tgood h' ts' F /\ intact h h' F /\ tviews h' ts' = Pre ++ fill X1 (rev Y) ++ X2 ++ Y).
  { induction X1 as [|x X1 IH] using rev_ind; intros X2 E.
    - simpl. exists h, ts. repeat split; auto; try apply Hg. simpl in E. subst. exact HV.
    - destruct (IH (x :: X2)) as (h1 & ts1 & H1 & H2 & H3 & H4).
      { rewrite E, <- app_assoc. reflexivity. }
      assert (HX : length X = length X1 + 1 + length X2) by (rewrite E, !app_length; simpl; lia).
      assert (HCX : zcount X = zcount X1 + zcount [x] + zcount X2) by (rewrite E, !zcount_app; lia).
      rewrite app_length. simpl. rewrite seq_app, compact_loop_app, H1. cbn [obind fst snd seq].
      rewrite Nat.add_0_l. cbn [compact_loop].
      assert (Hx : nth_error (tviews h1 ts1) (nM + length X1) = Some x).
      { rewrite H4, app_assoc. simpl. replace (nM + length X1) with (length (Pre ++ fill X1 (rev Y))).
        apply nth_mid. rewrite app_length, fill_len. lia. }
      destruct (tviews_nth_inv _ _ _ _ Hx) as (tx & Htx & Ex). rewrite Htx. cbn [obind of_option].
      change (Qeq_bool (tp tx) 0) with (zeroP (tview_of h1 tx)). rewrite <- Ex.
      unfold zeros. rewrite zeros_from_app. cbn [zeros_from]. rewrite Nat.add_0_l.
      destruct (zeroP x) eqn:Ez.
      + assert (Hz1 : zcount [x] = 1) by (unfold zcount; simpl; now rewrite Ez).
        fold (zeros X1). unfold zeros at 1. rewrite zeros_len.
        set (s := nM + nZ - 1 - zcount X1).
        set (y := nth (zcount X1) (rev Y) x).
        assert (Hy : nth_error (tviews h1 ts1) s = Some y).
        { unfold s, y. rewrite rev_nth by lia.
          rewrite H4. rewrite !app_assoc. rewrite nth_error_app2; rewrite !app_length, fill_len; simpl; try lia.
          replace (nM + nZ - 1 - zcount X1 - _) with (length Y - S (zcount X1)) by lia.
          apply nth_error_nth'. lia. }
        destruct (tviews_nth_inv _ _ _ _ Hy) as (ty & Hty & Ey).
        destruct (copy_at_ok h1 ts1 s (nM + length X1) ty tx F H2) as (h2 & ts2 & H5 & H6 & H7 & H8); auto.
        { unfold s. lia. }
        rewrite H5. cbn [obind fst snd].
        exists h2, ts2. split; [reflexivity|]. split; [exact H6|]. split.
        { intros p Hp. rewrite H7 by auto. now apply H3. }
        rewrite H8, <- Ey, H4, fill_snoc, Ez.
        2:{ left. rewrite rev_length. lia. }
        fold y. rewrite app_assoc. rewrite upd_app2; rewrite app_length, fill_len; [|lia].
        replace (nM + length X1 - (length Pre + length X1)) with 0 by lia. simpl.
        rewrite <- !app_assoc. reflexivity.
      + exists h1, ts1. rewrite app_nil_r. split; [reflexivity|]. split; [exact H2|]. split; [exact H3|].
        rewrite H4, fill_snoc, Ez by auto. rewrite <- !app_assoc. reflexivity. }
  destruct (H X [] (eq_sym (app_nil_r X))) as (h' & ts' & H1 & H2 & H3 & H4). eauto 10.
Qed.

(** Phase 2: the positions cut off by the final resize; [X] are the tracks
    already visited. *)
Lemma phase2 : forall F nM nZ (Y : list tview) h ts u (Q0 D : list tview) nX , tgood h ts F ->
  tviews h ts = Q0 ++ D ++ Y -> length Q0 + length D = nM + nX -> nZ = nX + length Y ->
  length u + zcount Y <= nZ -> (length Q0 + length u + zcount Y <= nM + nZ) ->
  (~ (exists A x B, Y = A ++ x :: B /\ zeroP x = true /\ holds_gaussian x /\ length B = length u + zcount A) ->
   exists h' ts' D', compact_loop h ts nM nZ (seq nX (length Y)) u = Val (h', ts', u ++ zeros_from nX Y) /\
    tgood h' ts' F /\ intact h h' F /\ tviews h' ts' = Q0 ++ D') /\
  ((exists A x B, Y = A ++ x :: B /\ zeroP x = true /\ holds_gaussian x /\ length B = length u + zcount A) ->
   compact_loop h ts nM nZ (seq nX (length Y)) u = UB UseAfterFree).
Proof.
  induction Y as [|x Y IH]; intros h ts u Q0 D nX Hg HV HL HN HU HU2.
  - split.
    + intros _. exists h, ts, D. simpl. rewrite !app_nil_r in *. repeat split; auto; apply Hg.
    + intros (A & x & B & E & _). destruct A; discriminate.
  - cbn [length seq compact_loop].
    assert (Hx : nth_error (tviews h ts) (nM + nX) = Some x).
    { rewrite HV, app_assoc. replace (nM + nX) with (length (Q0 ++ D)). apply nth_mid. rewrite app_length. lia. }
    destruct (tviews_nth_inv _ _ _ _ Hx) as (tx & Htx & Ex). rewrite Htx. cbn [obind of_option].
    change (Qeq_bool (tp tx) 0) with (zeroP (tview_of h tx)). rewrite <- Ex.
    assert (Hlen : length ts = nM + nZ).
    { rewrite <- (tviews_len h), HV, !app_length. simpl in *. lia. }
    simpl in HN.
    destruct (zeroP x) eqn:Ez.
    + assert (Hzc : zcount (x :: Y) = S (zcount Y)) by (unfold zcount; simpl; now rewrite Ez).
      rewrite Hzc in *.
      set (s := nM + nZ - 1 - length u).
      cbn [zeros_from]. rewrite Ez.
      assert (Hshift : forall A x0 B, x :: Y = A ++ x0 :: B -> A <> [] -> exists A', A = x :: A' /\ Y = A' ++ x0 :: B).
      { intros A x0 B E Hne. destruct A; [congruence|]. simpl in E. inversion E; subst. eauto. }
      destruct (Nat.eq_dec s (nM + nX)) as [Es|Es].
      * (* self copy *)
        rewrite Es. destruct (copy_at_self h ts (nM + nX) tx F Hg Htx) as [Hs Hu].
        destruct (Z.eq_dec (fst (fst (snd x))) 0) as [E0|E0].
        -- rewrite Hs by (rewrite <- Ex; unfold holds_gaussian; lia). cbn [obind fst snd].
           destruct (IH h ts (u ++ [nX]) Q0 (D ++ [x]) (S nX)) as [I1 I2]; auto.
           { rewrite HV. rewrite <- !app_assoc. reflexivity. }
           { rewrite app_length. simpl. lia. }
           { lia. }
           { rewrite app_length. simpl. lia. }
           { rewrite app_length. simpl. lia. }
           split.
           ++ intro Hn. destruct I1 as (h' & ts' & D' & J1 & J2 & J3 & J4).
              { intros (A & x0 & B & E & Hz & Hh & Hl). apply Hn. exists (x :: A), x0, B.
                rewrite E. repeat split; auto. rewrite app_length in Hl. simpl in Hl.
                unfold zcount in *. simpl. rewrite Ez. simpl. lia. }
              exists h', ts', D'. rewrite J1, <- app_assoc. repeat split; auto; apply J2.
           ++ intros (A & x0 & B & E & Hz & Hh & Hl). apply I2.
              destruct A as [|a A]; simpl in E; injection E as <- E'; subst Y.
              { elim Hh. exact E0. }
              exists A, x0, B. repeat split; auto. rewrite app_length.
              unfold zcount in *. simpl in *. rewrite Ez in Hl. simpl in Hl. lia.
        -- rewrite Hu by (rewrite <- Ex; exact E0). split; [|reflexivity].
           intro Hn. elim Hn. exists [], x, Y. repeat split; auto. unfold s, zcount in *. simpl in *. lia.
      * assert (Hsr : s < length ts) by (unfold s; lia).
        destruct (nth_error_ex _ ts s Hsr) as (ty & Hty).
        destruct (copy_at_ok h ts s (nM + nX) ty tx F Hg Es Hty Htx) as (h1 & ts1 & H1 & H2 & H3 & H4).
        rewrite H1. cbn [obind fst snd].
        destruct (IH h1 ts1 (u ++ [nX]) Q0 (D ++ [tview_of h ty]) (S nX)) as [I1 I2]; auto.
        { rewrite H4, HV. rewrite app_assoc, upd_app2; rewrite app_length; [|lia].
          replace (nM + nX - (length Q0 + length D)) with 0 by lia. simpl. rewrite <- !app_assoc. reflexivity. }
        { rewrite app_length. simpl. lia. }
        { lia. }
        { rewrite app_length. simpl. lia. }
        { rewrite app_length. simpl. lia. }
        split.
        -- intro Hn. destruct I1 as (h' & ts' & D' & J1 & J2 & J3 & J4).
           { intros (A & x0 & B & E & Hz & Hh & Hl). apply Hn. exists (x :: A), x0, B.
             rewrite E. repeat split; auto. rewrite app_length in Hl. simpl in Hl.
             unfold zcount in *. simpl. rewrite Ez. simpl. lia. }
           exists h', ts', D'. rewrite J1, <- app_assoc. repeat split; auto; try apply J2.
           intros p Hp. rewrite J3 by auto. now apply H3.
        -- intros (A & x0 & B & E & Hz & Hh & Hl). apply I2.
           destruct A as [|a A]; simpl in E; injection E as <- E'; subst Y.
           { elim Es. unfold s, zcount in *. simpl in *. lia. }
           exists A, x0, B. repeat split; auto. rewrite app_length.
           unfold zcount in *. simpl in *. rewrite Ez in Hl. simpl in Hl. lia.
    + assert (Hzc : zcount (x :: Y) = zcount Y) by (unfold zcount; simpl; now rewrite Ez).
      rewrite Hzc in *. cbn [zeros_from]. rewrite Ez.
      destruct (IH h ts u Q0 (D ++ [x]) (S nX)) as [I1 I2]; auto.
      { rewrite HV. rewrite <- !app_assoc. reflexivity. }
      { rewrite app_length. simpl. lia. }
      { lia. }
      split.
      * intro Hn. destruct I1 as (h' & ts' & D' & J1 & J2 & J3 & J4).
        { intros (A & x0 & B & E & Hz & Hh & Hl). apply Hn. exists (x :: A), x0, B.
          rewrite E. repeat split; auto. unfold zcount in *. simpl. rewrite Ez. lia. }
        exists h', ts', D'. repeat split; auto; apply J2.
      * intros (A & x0 & B & E & Hz & Hh & Hl). apply I2.
        destruct A as [|a A]; simpl in E; injection E as <- E'; subst Y; [congruence|].
        exists A, x0, B. repeat split; auto. unfold zcount in *. simpl in Hl. rewrite Ez in Hl. lia.
Qed.

Lemma skip_first_len : forall (W : list tview) k, k <= length W ->
  length (firstn k W) = k /\ length (skipn k W) = length W - k.
Proof. intros. rewrite firstn_length, skipn_length. lia. Qed.

Lemma self_fill_split : forall W X Y, W = X ++ Y -> length Y = zcount W ->
  (self_fill W <-> exists A x B, Y = A ++ x :: B /\ zeroP x = true /\ holds_gaussian x /\
                                 length B = zcount X + zcount A).
Proof.
  intros W X Y E HY. split.
  - intros (A & x & B & EW & Hz & Hh & HB).
    assert (length X <= length A).
    { destruct (le_lt_dec (length X) (length A)); auto. exfalso.
      assert (length W = length X + length Y) by (rewrite E, app_length; lia).
      assert (length W = length A + S (length B)) by (rewrite EW, app_length; simpl; lia).
      assert (zcount W = zcount A + S (zcount B)).
      { rewrite EW, zcount_app. unfold zcount. simpl. rewrite Hz. simpl. lia. }
      lia. }
    exists (skipn (length X) A), x, B.
    assert (EA : A = X ++ skipn (length X) A /\ Y = skipn (length X) A ++ x :: B).
    { rewrite E in EW.
      assert (H1 := f_equal (skipn (length X)) EW). assert (H2 := f_equal (firstn (length X)) EW).
      rewrite skipn_app, skipn_all, Nat.sub_diag in H1. simpl in H1.
      rewrite skipn_app in H1. replace (length X - length A) with 0 in H1 by lia. simpl in H1.
      rewrite firstn_app, firstn_all, Nat.sub_diag in H2. simpl in H2. rewrite app_nil_r in H2.
      rewrite firstn_app in H2. replace (length X - length A) with 0 in H2 by lia. simpl in H2.
      rewrite app_nil_r in H2. split; auto. rewrite H2 at 1. now rewrite firstn_skipn. }
    destruct EA as [EA EY]. repeat split; auto. rewrite HB. rewrite EA at 1. apply zcount_app.
  - intros (A & x & B & EY & Hz & Hh & HB). exists (X ++ A), x, B.
    rewrite E, EY, <- app_assoc, zcount_app. auto.
Qed.

Lemma self_dec : forall W, self_fill W \/ ~ self_fill W.
Proof.
  intro W.
  assert (H : forall (B A : list tview), (exists A' x B', B = A' ++ x :: B' /\ zeroP x = true /\ holds_gaussian x /\ (length B' = zcount (A ++ A'))%nat) \/
                        ~ (exists A' x B', B = A' ++ x :: B' /\ zeroP x = true /\ holds_gaussian x /\ (length B' = zcount (A ++ A'))%nat)).
  { induction B as [|b B IH]; intro A.
    - right. intros (A' & x & B' & E & _). destruct A'; discriminate.
    - destruct (IH (A ++ [b])) as [H|H].
      + left. destruct H as (A' & x & B' & E & H). exists (b :: A'), x, B'. rewrite E.
        rewrite <- app_assoc in H. auto.
      + assert (Hd : (zeroP b = true /\ holds_gaussian b /\ length B = zcount A) \/
                     ~ (zeroP b = true /\ holds_gaussian b /\ length B = zcount A)).
        { destruct (zeroP b); [|right; intros [? _]; discriminate].
          destruct (Nat.eq_dec (length B) (zcount A)); [|right; tauto].
          unfold holds_gaussian. destruct (Z.eq_dec (fst (fst (snd b))) 0); [right|left]; tauto. }
        destruct Hd as [Hd|Hd].
        * left. exists [], b, B. rewrite app_nil_r. tauto.
        * right. intros (A' & x & B' & E & H1 & H2 & H3). destruct A' as [|a A']; simpl in E; inversion E; subst.
          -- rewrite app_nil_r in H3. tauto.
          -- apply H. exists A', x, B'. rewrite <- app_assoc. auto. }
  destruct (H W []) as [H1|H1]; [left|right]; exact H1.
Qed.

Lemma compact_spec : forall h ts F nM nZ, tgood h ts F -> length ts = nM + nZ ->
  let V := tviews h ts in let W := skipn nM V in let k := nZ - zcount W in
  (self_fill W <-> compact h ts nM nZ = UB UseAfterFree) /\
  (~ self_fill W -> exists h' ts', compact h ts nM nZ = Val (h', ts', zeros W) /\
     tgood h' ts' F /\ intact h h' F /\
     tviews h' ts' = firstn nM V ++ fill (firstn k W) (rev (skipn k W))).
Proof.
  intros h ts F nM nZ Hg HL V W k.
  assert (HVl : length V = nM + nZ) by (unfold V; rewrite tviews_len; lia).
  assert (HWl : length W = nZ) by (unfold W; rewrite skipn_length; lia).
  assert (Hzc : zcount W <= nZ) by (rewrite <- HWl; apply zcount_le).
  destruct (skip_first_len W k ltac:(unfold k; lia)) as [HX HY].
  set (X := firstn k W) in *. set (Y := skipn k W) in *.
  assert (EW : W = X ++ Y) by (symmetry; apply firstn_skipn).
  assert (HPl : length (firstn nM V) = nM) by (rewrite firstn_length; lia).
  assert (HYz : length Y = zcount W) by (unfold k in HY; lia).
  assert (HzW : zcount W = zcount X + zcount Y) by (rewrite EW at 1; apply zcount_app).
  destruct (phase1 F nM nZ (firstn nM V) Y X h ts Hg) as (h1 & ts1 & H1 & H2 & H3 & H4); auto.
  { rewrite <- EW. unfold W. fold V. now rewrite firstn_skipn. }
  { lia. }
  { lia. }
  destruct (phase2 F nM nZ Y h1 ts1 (zeros X) (firstn nM V ++ fill X (rev Y)) [] (length X) H2) as [P1 P2]; auto.
  { rewrite H4. simpl. rewrite <- app_assoc. reflexivity. }
  { simpl. rewrite app_length, fill_len. lia. }
  { lia. }
  { unfold zeros. rewrite zeros_len. lia. }
  { unfold zeros. rewrite zeros_len, app_length, fill_len. lia. }
  assert (HS := self_fill_split W X Y EW HYz).
  unfold zeros at 1 3 in P1. unfold zeros in P2 at 1.
  rewrite zeros_len in P1, P2.
  assert (Hrun : compact_loop h ts nM nZ (seq 0 nZ) [] =
                 compact_loop h1 ts1 nM nZ (seq (length X) (length Y)) (zeros X)).
  { replace nZ with (length X + length Y) at 2 by lia. rewrite seq_app, compact_loop_app, H1. reflexivity. }
  assert (HV : ~ self_fill W -> exists h' ts', compact h ts nM nZ = Val (h', ts', zeros W) /\
     tgood h' ts' F /\ intact h h' F /\
     tviews h' ts' = firstn nM V ++ fill X (rev Y)).
  { intro Hn. rewrite HS in Hn. destruct (P1 Hn) as (h2 & ts2 & D & J1 & J2 & J3 & J4).
    unfold compact. rewrite Hrun. fold (zeros X) in J1. rewrite J1. cbn [obind].
    change (zeros_from 0 X) with (zeros X).
    assert (Ez : zeros X ++ zeros_from (length X) Y = zeros W).
    { unfold zeros. rewrite EW at 1. rewrite zeros_from_app. reflexivity. }
    rewrite Ez. unfold zeros at 1. rewrite zeros_len.
    assert (Hl2 : length ts2 = nM + k + length D).
    { rewrite <- (tviews_len h2), J4, !app_length, fill_len. lia. }
    destruct (resize_down h2 ts2 (nM + nZ - zcount W) F J2) as (h3 & R1 & R2 & R3 & R4).
    { unfold k in Hl2. lia. }
    rewrite R1. cbn [obind fst snd]. eexists h3, _. split; [reflexivity|].
    split; [exact R2|]. split.
    - intros p Hp. rewrite R3, J3 by auto. now apply H3.
    - rewrite R4, J4. rewrite firstn_app.
      replace (nM + nZ - zcount W) with (length (firstn nM V ++ fill X (rev Y))).
      + rewrite firstn_all, Nat.sub_diag. simpl. now rewrite app_nil_r.
      + rewrite app_length, fill_len. unfold k in HX. lia. }
  split; [|exact HV].
  split.
  - intro Hs. unfold compact. rewrite Hrun. rewrite P2; auto. now apply HS.
  - intro Hub. destruct (self_dec W) as [?|Hn]; auto.
    destruct (HV Hn) as (? & ? & E & _). congruence.
Qed.

Lemma zc_all : forall l, zcount l = length l -> forall v, In v l -> zeroP v = true.
Proof.
  induction l as [|a l IH]; intros H v Hv; [destruct Hv|]. unfold zcount in H. simpl in H.
  assert (Hle := zcount_le l). unfold zcount in Hle.
  destruct (zeroP a) eqn:E; simpl in H; [|lia]. destruct Hv as [<-|Hv]; [exact E|]. apply IH; [unfold zcount; lia|exact Hv].
Qed.
Lemma zc_none : forall l, (forall v, In v l -> zeroP v = false) -> zcount l = 0.
Proof. intros. unfold zcount. rewrite filter_all_false; auto. Qed.
Lemma zc_none_inv : forall l, zcount l = 0 -> forall v, In v l -> zeroP v = false.
Proof.
  induction l as [|a l IH]; intros H v Hv; [destruct Hv|]. unfold zcount in H. simpl in H.
  destruct (zeroP a) eqn:E; simpl in H; [lia|]. destruct Hv as [<-|Hv]; auto.
Qed.

Lemma filter_neg : forall l, zcount l + length (filter (fun v => negb (zeroP v)) l) = length l.
Proof. unfold zcount. induction l; simpl; auto. destruct (zeroP a); simpl; lia. Qed.

Lemma tidy_iff : forall W, let k := length W - zcount W in
  (Permutation (fill (firstn k W) (rev (skipn k W))) (filter (fun v => negb (zeroP v)) W) <-> tidy W).
Proof.
  intros W k.
  assert (Hzc : zcount W <= length W) by apply zcount_le.
  destruct (skip_first_len W k ltac:(unfold k; lia)) as [HX HY].
  unfold tidy. fold k. set (X := firstn k W) in *. set (Y := skipn k W) in *.
  assert (EW : W = X ++ Y) by (symmetry; apply firstn_skipn).
  assert (HzW : zcount W = zcount X + zcount Y) by (rewrite EW at 1; apply zcount_app).
  assert (HP := fill_perm X (rev Y)). rewrite rev_length in HP. specialize (HP ltac:(lia)).
  rewrite EW at 1. rewrite filter_app.
  assert (HnY := filter_neg Y).
  set (m := zcount X) in *.
  assert (Hm : length (filter (fun v => negb (zeroP v)) Y) = m) by lia.
  assert (Erev : firstn m (rev Y) = rev (skipn (length Y - m) Y)).
  { rewrite <- (firstn_skipn (length Y - m) Y) at 1. rewrite rev_app_distr, firstn_app, rev_length.
    rewrite skipn_length. replace (m - (length Y - (length Y - m))) with 0 by lia.
    rewrite firstn_O, app_nil_r. apply firstn_all2. rewrite rev_length, skipn_length. lia. }
  split.
  - intro H.
    assert (Hin : forall v, In v (firstn m (rev Y)) -> zeroP v = false).
    { intros v Hv. assert (Hv' : In v (fill X (rev Y))).
      { eapply Permutation_in; [symmetry; exact HP|]. apply in_or_app. now right. }
      eapply Permutation_in in Hv'; [|exact H]. rewrite <- filter_app in Hv'.
      apply filter_In in Hv' as [_ Hv']. now apply negb_true_iff. }
    exists (firstn (length Y - m) Y), (skipn (length Y - m) Y). split; [now rewrite firstn_skipn|].
    assert (HPn : forall v, In v (skipn (length Y - m) Y) -> zeroP v = false).
    { intros v Hv. apply Hin. rewrite Erev. rewrite <- in_rev. exact Hv. }
    split; auto.
    apply zc_all. rewrite firstn_length.
    assert (HzY : zcount Y = zcount (firstn (length Y - m) Y) + zcount (skipn (length Y - m) Y)).
    { rewrite <- zcount_app, firstn_skipn. reflexivity. }
    rewrite (zc_none _ HPn) in HzY. lia.
  - intros (Z & P & E & HZ & HPn).
    rewrite HP. apply Permutation_app_head. rewrite Erev.
    assert (HfP : filter (fun v => negb (zeroP v)) Y = P).
    { rewrite E, filter_app. rewrite (filter_all_false _ _ Z). 
      - simpl. clear -HPn. induction P; simpl; auto. rewrite HPn by (now left). simpl. f_equal. apply IHP.
        intros; apply HPn; now right.
      - intros x Hx. rewrite HZ; auto. }
    rewrite HfP in *. rewrite E. rewrite app_length, skipn_app.
    replace (length Z + length P - m) with (length Z) by lia.
    rewrite skipn_all, Nat.sub_diag. simpl. symmetry. apply Permutation_rev.
Qed.
