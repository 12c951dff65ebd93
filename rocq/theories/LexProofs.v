(** Proofs about PermutationLexicographic (C22). *)
From Coq Require Import ZArith List Bool Arith Lia Permutation Sorted Factorial.
From Verif Require Import Base ListUtil HungarianModel EnumLemmas LexModel LexSpec.
Import ListNotations.
Local Open Scope nat_scope.

Definition asc := StronglySorted le.
Definition desc := StronglySorted ge.

Lemma lex_length : forall l m, lex_lt l m -> length l = length m.
Proof. induction 1; simpl; auto. Qed.

Lemma lex_irrefl : forall l, ~ lex_lt l l.
Proof. induction l; intros H; inversion H; subst; auto. lia. Qed.

Lemma lex_trans : forall l m k, lex_lt l m -> lex_lt m k -> lex_lt l k.
Proof.
  intros l m k H. revert k. induction H as [x y l m Hxy Hl|x l m H IH]; intros k Hk; inversion Hk; subst.
  - constructor; [lia|congruence].
  - constructor; auto. rewrite Hl. now apply lex_length.
  - constructor; auto. rewrite (lex_length _ _ H). auto.
  - apply lex_next. auto.
Qed.

Lemma lex_total : forall l m, length l = length m -> lex_lt l m \/ l = m \/ lex_lt m l.
Proof.
  induction l as [|x l IH]; destruct m as [|y m]; simpl; intros H; try discriminate; auto.
  destruct (lt_eq_lt_dec x y) as [[Hlt| ->]|Hgt].
  - left. constructor; auto.
  - destruct (IH m ltac:(lia)) as [H1|[->|H1]]; auto.
    + left. now apply lex_next.
    + right. right. now apply lex_next.
  - right. right. constructor; auto; lia.
Qed.

Lemma lex_app : forall p t p' t', length p = length p' ->
  (lex_lt (p ++ t) (p' ++ t') <-> (lex_lt p p' /\ length t = length t') \/ (p = p' /\ lex_lt t t')).
Proof.
  induction p as [|x p IH]; destruct p' as [|y p']; simpl; intros t' Hl; try discriminate.
  - split; [auto|]. intros [[H _]|[_ H]]; auto. inversion H.
  - split.
    + intros H. inversion H as [? ? ? ? Hxy Hle|? ? ? Hr]; subst.
      * left. split; [constructor; auto|]. rewrite !app_length in Hle. lia.
      * apply IH in Hr; [|lia]. destruct Hr as [[H1 H2]|[-> H1]]; auto. left. split; auto. now apply lex_next.
    + intros [[H Ht]|[E H]].
      * inversion H as [? ? ? ? Hxy Hle|? ? ? Hr]; subst.
        -- constructor; auto. rewrite !app_length. lia.
        -- apply lex_next. apply IH; auto.
      * injection E as -> ->. apply lex_next. apply IH; auto.
Qed.

Lemma asc_min : forall l m, asc l -> Permutation l m -> l = m \/ lex_lt l m.
Proof.
  induction l as [|x l IH]; intros m Ha Hp.
  - apply Permutation_nil in Hp. auto.
  - destruct m as [|z m]; [apply Permutation_sym, Permutation_nil in Hp; discriminate|].
    inversion Ha as [|? ? Ha' Hx]; subst.
    assert (Hz : x <= z).
    { assert (Hin : In z (x :: l)) by (apply (Permutation_in _ (Permutation_sym Hp)); left; auto).
      destruct Hin as [->|Hin]; [lia|]. rewrite Forall_forall in Hx. now apply Hx. }
    destruct (Nat.eq_dec x z) as [->|Hne].
    + apply Permutation_cons_inv in Hp. destruct (IH m Ha' Hp) as [->|H]; auto. right. now apply lex_next.
    + right. constructor; [lia|]. apply Permutation_length in Hp. simpl in Hp. lia.
Qed.

Lemma desc_max : forall l m, desc l -> Permutation l m -> ~ lex_lt l m.
Proof.
  induction l as [|x l IH]; intros m Ha Hp H.
  - inversion H.
  - destruct m as [|z m]; [inversion H|]. inversion Ha as [|? ? Ha' Hx]; subst.
    inversion H as [? ? ? ? Hxz Hle|? ? ? Hr]; subst.
    + assert (Hin : In z (x :: l)) by (apply (Permutation_in _ (Permutation_sym Hp)); left; auto).
      destruct Hin as [->|Hin]; [lia|]. rewrite Forall_forall in Hx. specialize (Hx z Hin). lia.
    + apply Permutation_cons_inv in Hp. apply (IH m); auto.
Qed.

Lemma sorted_app : forall (R : nat -> nat -> Prop) l m,
  StronglySorted R (l ++ m) <-> StronglySorted R l /\ StronglySorted R m /\ (forall x y, In x l -> In y m -> R x y).
Proof.
  induction l as [|a l IH]; simpl; intros m.
  - split; [intros H; repeat split; auto; [constructor|tauto]|tauto].
  - split.
    + intros H. inversion H as [|? ? H1 H2]; subst. apply IH in H1. destruct H1 as (A & B & C).
      rewrite Forall_app in H2. destruct H2 as [H2 H3]. rewrite Forall_forall in H3.
      split; [constructor; auto|]. split; auto. intros x y [->|Hx] Hy; auto.
    + intros (A & B & C). inversion A as [|? ? H1 H2]; subst. constructor.
      * apply IH. split; auto.
      * apply Forall_app. split; auto. apply Forall_forall. intros. apply C; auto.
Qed.

Lemma desc_rev : forall l, desc l <-> asc (rev l).
Proof.
  induction l as [|x l IH]; simpl.
  - split; constructor.
  - unfold asc in *. rewrite sorted_app. rewrite <- IH. split.
    + intros H. inversion H as [|? ? H1 H2]; subst. split; auto. split; [repeat constructor|].
      intros a b Ha [<-|[]]. apply in_rev in Ha. rewrite Forall_forall in H2. apply H2 in Ha. lia.
    + intros (A & _ & B). constructor; auto. apply Forall_forall. intros a Ha.
      specialize (B a x). rewrite <- in_rev in B. specialize (B Ha (or_introl eq_refl)). lia.
Qed.

Lemma exchange_some : forall x l y r, asc l -> exchange_first x l = Some (y, r) ->
  exists lo hi, l = lo ++ y :: hi /\ r = lo ++ x :: hi /\ x < y /\ (forall a, In a lo -> a <= x).
Proof.
  induction l as [|a l IH]; simpl; intros y r Ha H; [discriminate|].
  inversion Ha as [|? ? Ha' Hx]; subst.
  destruct (Nat.ltb_spec x a) as [Hlt|Hge].
  - injection H as -> <-. exists [], l. repeat split; auto. intros ? [].
  - destruct (exchange_first x l) as [[z r']|] eqn:E; [|discriminate]. injection H as -> <-.
    destruct (IH y r' Ha' eq_refl) as (lo & hi & -> & -> & H1 & H2).
    exists (a :: lo), hi. repeat split; auto. intros b [<-|Hb]; auto.
Qed.

Lemma exchange_none : forall x l, exchange_first x l = None -> forall a, In a l -> a <= x.
Proof.
  induction l as [|a l IH]; simpl; intros H b Hb; [tauto|].
  destruct (Nat.ltb_spec x a) as [Hlt|Hge]; [discriminate|].
  destruct (exchange_first x l) as [[z r']|]; [discriminate|].
  destruct Hb as [<-|Hb]; auto.
Qed.

(** next_perm computes the immediate lexicographic successor. *)
Lemma next_perm_ok : forall l,
  match next_perm l with
  | None => desc l
  | Some l' => Permutation l l' /\ lex_lt l l' /\
               forall m, Permutation l m -> lex_lt l m -> l' = m \/ lex_lt l' m
  end.
Proof.
  induction l as [|x r IH]; simpl; [constructor|].
  destruct (next_perm r) as [r'|].
  - destruct IH as (H1 & H2 & H3). split; [now apply perm_skip|]. split; [now apply lex_next|].
    intros m Hp Hm. inversion Hm as [? y ? m' Hxy Hl|? ? m' Hr]; subst.
    + right. constructor; auto. rewrite <- Hl. symmetry. now apply Permutation_length.
    + apply Permutation_cons_inv in Hp. destruct (H3 m' Hp Hr) as [->|H]; auto. right. now apply lex_next.
  - assert (Ha : asc (rev r)) by (now apply desc_rev).
    destruct (exchange_first x (rev r)) as [[y r']|] eqn:E.
    + destruct (exchange_some _ _ _ _ Ha E) as (lo & hi & Er & -> & Hxy & Hlo).
      assert (Hp : Permutation (x :: r) (y :: lo ++ x :: hi)).
      { rewrite (Permutation_rev r), Er. rewrite (perm_skip x (Permutation_sym (Permutation_middle lo hi y))).
        rewrite perm_swap. apply perm_skip. apply Permutation_middle. }
      split; auto. split.
      { constructor; auto. apply Permutation_length in Hp. simpl in Hp. lia. }
      intros m Hpm Hm. inversion Hm as [? z ? m' Hxz Hl|? ? m' Hr]; subst.
      * assert (Hz : In z (rev r)).
        { assert (Hin : In z (x :: r)) by (apply (Permutation_in _ (Permutation_sym Hpm)); left; auto).
          destruct Hin as [->|Hin]; [lia|]. now apply -> in_rev. }
        rewrite Er in Hz, Ha. unfold asc in Ha. rewrite sorted_app in Ha. destruct Ha as (A1 & A2 & A3).
        inversion A2 as [|? ? A4 A5]; subst. rewrite Forall_forall in A5.
        assert (Hyz : y <= z).
        { apply in_app_iff in Hz. destruct Hz as [Hz|[->|Hz]]; [apply Hlo in Hz; lia|lia|auto]. }
        destruct (Nat.eq_dec y z) as [->|Hne].
        -- assert (Hs : asc (lo ++ x :: hi)).
           { apply sorted_app. split; auto. split.
             - constructor; auto. apply Forall_forall. intros a Ha. specialize (A5 a Ha). lia.
             - intros a b Ha [<-|Hb]; [auto|]. apply A3; auto. now right. }
           rewrite Hp in Hpm. apply Permutation_cons_inv in Hpm.
           destruct (asc_min _ _ Hs Hpm) as [->|H]; auto. right. now apply lex_next.
        -- right. constructor; [lia|]. apply Permutation_length in Hp. apply Permutation_length in Hpm. simpl in *. lia.
      * exfalso. apply Permutation_cons_inv in Hpm. apply (desc_max r m'); auto.
    + constructor; auto. apply Forall_forall. intros a Hin. apply (exchange_none x (rev r)); auto.
      now apply -> in_rev.
Qed.

Lemma sort_exists : forall l, exists l', asc l' /\ Permutation l l'.
Proof.
  induction l as [|x l (l' & Ha & Hp)].
  - exists []. split; constructor.
  - assert (G : forall l', asc l' -> exists l2, asc l2 /\ Permutation (x :: l') l2).
    { induction l'0 as [|y l2 IH]; intros Hs.
      - exists [x]. split; auto. repeat constructor.
      - inversion Hs as [|? ? H1 H2]; subst. destruct (le_lt_dec x y) as [Hle|Hgt].
        + exists (x :: y :: l2). split; auto. constructor; auto. constructor; auto.
          rewrite Forall_forall in *. intros a Ha'. specialize (H2 a Ha'). lia.
        + destruct (IH H1) as (l3 & A & B). exists (y :: l3). split.
          * constructor; auto. apply Forall_forall. intros a Ha'.
            apply (Permutation_in _ (Permutation_sym B)) in Ha'. rewrite Forall_forall in H2.
            destruct Ha' as [<-|Ha']; [lia|auto].
          * rewrite perm_swap. now apply perm_skip. }
    destruct (G l' Ha) as (l2 & A & B). exists l2. split; auto. rewrite <- B. now apply perm_skip.
Qed.

(** Value in base B, to bound the number of steps. *)
Fixpoint value (B : nat) (l : list nat) : nat :=
  match l with [] => 0 | x :: r => x * B ^ length r + value B r end.

Lemma value_bound : forall B l, Forall (fun x => x < B) l -> value B l < B ^ length l.
Proof.
  induction l as [|x l IH]; simpl; intros H; [lia|].
  inversion H as [|? ? Hx Hl]; subst. specialize (IH Hl).
  assert (x * B ^ length l + B ^ length l <= B * B ^ length l); [|lia].
  replace (x * B ^ length l + B ^ length l) with (S x * B ^ length l) by (simpl; lia).
  apply Nat.mul_le_mono_r. lia.
Qed.

Lemma value_lt : forall B l m, Forall (fun x => x < B) l -> Forall (fun x => x < B) m ->
  lex_lt l m -> value B l < value B m.
Proof.
  intros B l m Hl Hm H. revert Hl Hm. induction H as [x y l m Hxy Hle|x l m H IH]; intros Hl Hm; simpl.
  - inversion Hl as [|? ? Hx Hl']; subst. assert (Hb := value_bound B l Hl').
    rewrite <- Hle. assert (x * B ^ length l + B ^ length l <= y * B ^ length l); [|lia].
    replace (x * B ^ length l + B ^ length l) with (S x * B ^ length l) by (simpl; lia).
    apply Nat.mul_le_mono_r. lia.
  - inversion Hl; inversion Hm; subst. rewrite (lex_length _ _ H). specialize (IH ltac:(auto) ltac:(auto)). lia.
Qed.

Section Enumerate.
Variables (nM nZ : nat) (b : list nat).
Hypothesis Hsize : nM <= length b.
Hypothesis Hpos : b <> [].
Let B := S nZ.
Hypothesis Hdig : Forall (fun x => x < B) b.

(** Invariant of the object between calls. *)
Definition linv (o : list nat) : Prop := Permutation b o /\ asc (skipn nM o).
Let pre (o : list nat) := firstn nM o.

Lemma perm_digits : forall o, Permutation b o -> Forall (fun x => x < B) o.
Proof. intros o H. rewrite Forall_forall in *. intros x Hx. apply Hdig. now apply (Permutation_in _ (Permutation_sym H)). Qed.

Lemma pre_length : forall o, Permutation b o -> length (pre o) = nM.
Proof. intros o H. unfold pre. rewrite firstn_length. apply Permutation_length in H. lia. Qed.

Lemma step_ok : forall o, linv o ->
  match next_perm (pre o ++ rev (skipn nM o)) with
  | Some o2 => linv o2 /\ lex_lt (pre o) (pre o2) /\
      (forall m, Permutation b m -> lex_lt (pre o) (pre m) -> pre o2 = pre m \/ lex_lt (pre o2) (pre m))
  | None => forall m, Permutation b m -> ~ lex_lt (pre o) (pre m)
  end.
Proof.
  intros o [Hp Ha]. set (o1 := pre o ++ rev (skipn nM o)).
  assert (Hp1 : Permutation b o1).
  { unfold o1. rewrite <- Permutation_rev. unfold pre. now rewrite firstn_skipn. }
  assert (Hup : forall m, Permutation b m -> lex_lt (pre o) (pre m) -> lex_lt o1 m).
  { intros m Hm H. rewrite <- (firstn_skipn nM m). apply lex_app.
    - rewrite !pre_length; auto.
    - left. split; auto. rewrite rev_length, !skipn_length.
      apply Permutation_length in Hp, Hm. lia. }
  assert (N := next_perm_ok o1). destruct (next_perm o1) as [o2|].
  - destruct N as (N1 & N2 & N3).
    assert (Hp2 : Permutation b o2) by (now rewrite Hp1).
    assert (Hdown : forall m, Permutation b m -> lex_lt o1 m -> lex_lt (pre o) (pre m)).
    { intros m Hm H. rewrite <- (firstn_skipn nM m) in H. apply lex_app in H.
      - destruct H as [[H _]|[E H]]; auto. exfalso.
        assert (Pt : Permutation (skipn nM o) (skipn nM m)).
        { apply Permutation_app_inv_l with (firstn nM m). rewrite <- E at 1.
          unfold pre. rewrite !firstn_skipn. now rewrite <- Hp, Hm. }
        apply (desc_max (rev (skipn nM o)) (skipn nM m)); auto.
        + apply desc_rev. now rewrite rev_involutive.
        + now rewrite <- Permutation_rev.
      - rewrite pre_length by auto. symmetry. apply (pre_length m Hm). }
    assert (Hlt := Hdown o2 Hp2 N2).
    destruct (sort_exists (skipn nM o2)) as (t & Ht & Pt).
    assert (Pm : Permutation b (pre o2 ++ t)).
    { rewrite <- Pt. unfold pre. now rewrite firstn_skipn. }
    assert (Epre : pre (pre o2 ++ t) = pre o2).
    { unfold pre at 1. rewrite firstn_app. rewrite pre_length by auto. rewrite Nat.sub_diag. simpl.
      rewrite app_nil_r. apply firstn_all2. rewrite pre_length; auto. }
    assert (E2 : o2 = pre o2 ++ t).
    { destruct (N3 (pre o2 ++ t)) as [E|H]; auto.
      - now rewrite <- Hp1.
      - apply Hup; auto. now rewrite Epre.
      - exfalso. rewrite <- (firstn_skipn nM o2) in H at 1. fold (pre o2) in H. apply lex_app in H; auto.
        destruct H as [[H _]|[_ H]]; [now apply lex_irrefl in H|].
        destruct (asc_min t (skipn nM o2) Ht (Permutation_sym Pt)) as [E|H'].
        + rewrite E in H. now apply lex_irrefl in H.
        + apply (lex_irrefl t). eapply lex_trans; eauto. }
    split; [split; auto|split; auto].
    + assert (Es : skipn nM o2 = t).
      { rewrite E2. rewrite skipn_app. rewrite pre_length by auto. rewrite Nat.sub_diag. simpl.
        rewrite skipn_all2; auto. rewrite pre_length; auto. }
      now rewrite Es.
    + intros m Hm H. destruct (N3 m) as [->|H']; auto.
      * now rewrite <- Hp1.
      * rewrite <- (firstn_skipn nM o2), <- (firstn_skipn nM m) in H'. apply lex_app in H'.
        -- destruct H' as [[H' _]|[E _]]; auto.
        -- rewrite !firstn_length. apply Permutation_length in Hp2, Hm. lia.
  - intros m Hm H. apply (desc_max o1 m); auto. now rewrite <- Hp1.
Qed.

Lemma enumerate_from : forall fuel o nP, linv o -> B ^ length b - value B o < fuel ->
  exists outs, In o outs /\
  (forall k, next_calls k (LX o nM nZ nP false) =
     Val (firstn k (combine (seq (S nP) (length outs)) outs ++ repeat (0, repeat 0 (length b)) k))) /\
  ascending lex_lt (map pre outs) /\ Forall linv outs /\
  (forall o', In o' outs -> o' = o \/ lex_lt (pre o) (pre o')) /\
  (forall m, Permutation b m -> ~ lex_lt (pre m) (pre o) -> In (pre m) (map pre outs)).
Proof.
  induction fuel as [|fuel IH]; intros o nP HI Hf; [lia|].
  assert (St := step_ok o HI). destruct HI as [Hp Ha].
  assert (Hlo : length o = length b) by (symmetry; now apply Permutation_length).
  assert (Hz : (length o =? 0) = false).
  { apply Nat.eqb_neq. rewrite Hlo. destruct b; [congruence|discriminate]. }
  destruct (next_perm (pre o ++ rev (skipn nM o))) as [o2|] eqn:En.
  - destruct St as (HI2 & Hlt & Hmin).
    assert (Hv : value B o < value B o2).
    { apply value_lt.
      - now apply perm_digits.
      - apply perm_digits. apply HI2.
      - rewrite <- (firstn_skipn nM o), <- (firstn_skipn nM o2). apply lex_app.
        + assert (H := pre_length o Hp). assert (H' := pre_length o2 (proj1 HI2)). unfold pre in *. congruence.
        + left. split; auto. rewrite !skipn_length. destruct HI2 as [Hp2 _]. apply Permutation_length in Hp2. lia. }
    assert (Hb2 : value B o2 < B ^ length b).
    { rewrite (Permutation_length (proj1 HI2)). apply value_bound, perm_digits, HI2. }
    destruct (IH o2 (S nP) HI2) as (outs & Ho2 & Hc & Hs & Hl & Hg & Hall); [lia|].
    assert (Hgt : forall o', In o' outs -> lex_lt (pre o) (pre o')).
    { intros o' Ho'. destruct (Hg o' Ho') as [->|H]; auto. eapply lex_trans; eauto. }
    exists (o :: outs). split; [now left|]. split.
    { intros [|k]; auto. simpl. unfold next. simpl. rewrite Hz. fold (pre o). rewrite En. simpl.
      rewrite Hc. simpl. f_equal. f_equal.
      set (l := combine (seq (S (S nP)) (length outs)) outs).
      assert (G : forall (x : nat * list nat) k l a a', k <= a -> k <= a' ->
        firstn k (l ++ repeat x a) = firstn k (l ++ repeat x a')).
      { clear. induction k as [|k IHk]; intros l a a' Ha Ha'; auto.
        destruct l as [|c l]; simpl.
        - destruct a, a'; try lia. simpl. f_equal. apply (IHk []); lia.
        - f_equal. apply IHk; lia. }
      change ((0, repeat 0 (length b)) :: repeat (0, repeat 0 (length b)) k)
        with (repeat (0, repeat 0 (length b)) (S k)).
      apply G; lia. }
    split. { simpl. split; auto. intros y Hy. apply in_map_iff in Hy. destruct Hy as (o' & <- & Ho'). auto. }
    split. { constructor; auto. split; auto. }
    split. { intros o' [<-|Ho']; auto. }
    intros m Hm Hnlt. simpl.
    destruct (lex_total (pre o) (pre m)) as [H|[H|H]].
    + rewrite !pre_length; auto.
    + right. apply Hall; auto. intros H'. destruct (Hmin m Hm H) as [E|E].
      * rewrite E in H'. now apply lex_irrefl in H'.
      * apply (lex_irrefl (pre m)). eapply lex_trans; eauto.
    + now left.
    + contradiction.
  - exists [o]. split; [now left|]. split.
    { intros [|k]; auto. simpl. unfold next. simpl. rewrite Hz. fold (pre o). rewrite En. simpl.
      assert (G : forall k nP', next_calls k (LX (rev (pre o ++ rev (skipn nM o))) nM nZ nP' true) =
         Val (repeat (0, repeat 0 (length b)) k)).
      { intros k0 nP'. assert (HL : length (rev (pre o ++ rev (skipn nM o))) = length b).
        { rewrite rev_length, app_length, rev_length. unfold pre.
          rewrite <- app_length, firstn_skipn. exact Hlo. }
        induction k0 as [|k0 IHk]; auto. cbn [next_calls]. unfold next. cbn [llast lo].
        rewrite HL. cbn [obind]. rewrite IHk. reflexivity. }
      rewrite G. simpl. f_equal. f_equal.
      assert (R : forall (x : nat * list nat) j a, j <= a -> firstn j (repeat x a) = repeat x j).
      { clear. induction j; intros [|a] ?; simpl; auto; try lia. f_equal. apply IHj; lia. }
      change ((0, repeat 0 (length b)) :: repeat (0, repeat 0 (length b)) k) with (repeat (0, repeat 0 (length b)) (S k)).
      symmetry. apply R. lia. }
    split. { simpl. split; auto. intros ? []. }
    split. { constructor; auto. split; auto. }
    split. { intros o' [<-|[]]; auto. }
    intros m Hm Hnlt. simpl. destruct (lex_total (pre o) (pre m)) as [H|[H|H]]; auto.
    + rewrite !pre_length; auto.
    + exfalso. now apply (St m).
Qed.
End Enumerate.
