(** Enumeration of the association hypotheses; the sum over the permutations of a block. *)
From Coq Require Import ZArith List Bool Arith QArith Qcanon Lia Permutation.
From Verif Require Import Base ListUtil QcLra PermanentSpec PermanentProofs EnumLemmas LexSpec LexModel LexProofs2
  RfsModel RfsSpec RfsProofs.
From Verif Require MurtyProofs.
Import ListNotations.
Local Open Scope Qc_scope.

Definition notin (h : list nat) (z : nat) : bool := negb (existsb (Nat.eqb z) h).

Lemma notin_true : forall h z, notin h z = true <-> ~ In z h.
Proof.
  intros h z. unfold notin. rewrite negb_true_iff, <- not_true_iff_false, existsb_exists.
  split; intros H K; apply H.
  - exists z. split; [exact K|apply Nat.eqb_refl].
  - destruct K as (x & X1 & X2). apply Nat.eqb_eq in X2. subst. exact X1.
Qed.

Section Assoc.
Variable nZ : nat.

Fixpoint henum (k : nat) (cols : list nat) : list (list nat) :=
  match k with
  | 0%nat => [[]]
  | S k' => map (cons nZ) (henum k' cols) ++ flat_map (fun c => map (cons c) (henum k' (rm c cols))) cols
  end.

Definition assoc (k : nat) (cols h : list nat) : Prop :=
  length h = k /\ (forall v, In v h -> In v cols \/ v = nZ) /\
  (forall i j v, v <> nZ -> nth_error h i = Some v -> nth_error h j = Some v -> i = j).

Lemma henum_in : forall k cols h, ~ In nZ cols -> (In h (henum k cols) <-> assoc k cols h).
Proof.
  induction k as [|k IH]; intros cols h Hz; cbn [henum].
  - split.
    + intros [<-|[]]. split; [reflexivity|]. split; [intros v []|]. intros [|i] [|j] v _ H; discriminate.
    + intros (Hl & _). destruct h; [left; reflexivity|discriminate].
  - rewrite in_app_iff, in_map_iff, in_flat_map. split.
    + intros [(h' & <- & Hh)|(c & Hc & Hh)].
      * apply IH in Hh; [|exact Hz]. destruct Hh as (H1 & H2 & H3). split; [cbn; congruence|]. split.
        -- intros v [<-|Hv]; auto.
        -- intros [|i] [|j] v Hv Hi Hj; cbn in *; try congruence; try (f_equal; eauto).
      * apply in_map_iff in Hh. destruct Hh as (h' & <- & Hh).
        apply IH in Hh; [|intros K; apply in_remove in K; tauto]. destruct Hh as (H1 & H2 & H3).
        assert (Nc : ~ In c h').
        { intros K. destruct (H2 c K) as [Q|Q]; [apply in_remove in Q; tauto|subst; contradiction]. }
        split; [cbn; congruence|]. split.
        -- intros v [<-|Hv]; [auto|]. destruct (H2 v Hv) as [K|K]; [apply in_remove in K; tauto|auto].
        -- intros [|i] [|j] v Hv Hi Hj; cbn in *; [reflexivity| | |f_equal; eauto].
           ++ exfalso. apply Nc. injection Hi as ->. eapply nth_error_In; eauto.
           ++ exfalso. apply Nc. injection Hj as ->. eapply nth_error_In; eauto.
    + intros (H1 & H2 & H3). destruct h as [|x h]; [discriminate|]. cbn in H1. injection H1 as H1.
      assert (H3' : forall i j v, v <> nZ -> nth_error h i = Some v -> nth_error h j = Some v -> i = j).
      { intros i j v Hv Hi Hj. specialize (H3 (S i) (S j) v Hv Hi Hj). lia. }
      destruct (H2 x (or_introl eq_refl)) as [Hx|Hx].
      * right. exists x. split; [exact Hx|]. apply in_map. apply IH; [intros K; apply in_remove in K; tauto|].
        assert (Hne : x <> nZ) by congruence.
        split; [exact H1|]. split; [|exact H3'].
        intros v Hv. destruct (H2 v (or_intror Hv)) as [K|K]; [|auto]. left. apply in_in_remove; [|exact K].
        intros ->. apply In_nth_error in Hv. destruct Hv as [j Hj].
        specialize (H3 0%nat (S j) x Hne eq_refl Hj). discriminate.
      * left. exists h. subst x. split; [reflexivity|]. apply IH; [exact Hz|].
        split; [exact H1|]. split; [|exact H3']. intros v Hv. apply H2. right. exact Hv.
Qed.

Lemma nodup_cons_map : forall (x : nat) l, NoDup l -> NoDup (map (cons x) l).
Proof. intros x l N. apply FinFun.Injective_map_NoDup; [|exact N]. intros a b E. congruence. Qed.

Lemma henum_nodup : forall k cols, NoDup cols -> ~ In nZ cols -> NoDup (henum k cols).
Proof.
  induction k as [|k IH]; intros cols N Hz; cbn [henum]; [repeat constructor; intros []|].
  assert (F : forall l, NoDup l -> ~ In nZ l -> incl l cols ->
     NoDup (flat_map (fun c => map (cons c) (henum k (rm c cols))) l)).
  { induction l as [|c l IHl]; intros Nl Hl Hi; cbn [flat_map]; [constructor|].
    inversion Nl; subst. apply MurtyProofs.NoDup_app_intro.
    - apply nodup_cons_map. apply IH; [apply remove_nodup; exact N|intros K; apply in_remove in K; tauto].
    - apply IHl; [assumption|intros K; apply Hl; right; exact K|intros y Hy; apply Hi; right; exact Hy].
    - intros h Ha Hb. apply in_map_iff in Ha. destruct Ha as (h1 & <- & _).
      apply in_flat_map in Hb. destruct Hb as (d & Hd & Hb). apply in_map_iff in Hb.
      destruct Hb as (h2 & E & _). injection E as -> _. contradiction. }
  apply MurtyProofs.NoDup_app_intro.
  - apply nodup_cons_map. apply IH; assumption.
  - apply F; [exact N|exact Hz|apply incl_refl].
  - intros h Ha Hb. apply in_map_iff in Ha. destruct Ha as (h1 & <- & _).
    apply in_flat_map in Hb. destruct Hb as (d & Hd & Hb). apply in_map_iff in Hb.
    destruct Hb as (h2 & E & _). injection E as -> _. contradiction.
Qed.

Lemma assoc_association : forall k h, assoc k (seq 0 nZ) h <-> association k nZ true h.
Proof.
  intros k h. unfold assoc, association. split; intros (H1 & H2 & H3); (split; [exact H1|]).
  - assert (B : forall v, In v h -> (v < nZ)%nat \/ (true = true /\ v = nZ)).
    { intros v Hv. destruct (H2 v Hv) as [K| ->]; [apply in_seq in K; left; lia|auto]. }
    split; [exact B|]. intros i j v Hv. apply H3. lia.
  - split.
    + intros v Hv. destruct (H2 v Hv) as [K|[_ ->]]; [left; apply in_seq; lia|auto].
    + intros i j v Hv Hi Hj. apply (H3 i j v); auto.
      apply nth_error_In in Hi. destruct (H2 v Hi) as [K|[_ K]]; [exact K|contradiction].
Qed.

End Assoc.

Section Enum.
Variable L : nat -> nat -> Qc.
Variables q cl : nat -> Qc.
Variable nZ : nat.

Fixpoint rw (rows h : list nat) : Qc :=
  match rows, h with
  | r :: rs, x :: h' => (if Nat.ltb x nZ then L r x else q r) * rw rs h'
  | _, _ => 1
  end.
Definition wgt (rows cols h : list nat) : Qc := rw rows h * qprod (map cl (filter (notin h) cols)).

Lemma filter_ext_in' : forall (f g : nat -> bool) l, (forall x, In x l -> f x = g x) -> filter f l = filter g l.
Proof. exact (@filter_ext_in nat). Qed.

Lemma qsum_flat : forall {X} (f : X -> Qc) (g : nat -> list X) l,
  qsum (map f (flat_map g l)) = qsum (map (fun c => qsum (map f (g c))) l).
Proof.
  intros X f g. induction l as [|c l IH]; cbn [flat_map map]; [reflexivity|].
  rewrite map_app, qsum_app, IH. reflexivity.
Qed.

Lemma filter_rm : forall c h cols, NoDup cols -> In c cols ->
  filter (notin (c :: h)) cols = filter (notin h) (rm c cols).
Proof.
  intros c h cols N. induction cols as [|d cols IH]; intros Hc; [destruct Hc|].
  inversion N; subst. cbn [filter remove].
  assert (G : forall l, ~ In c l -> filter (notin (c :: h)) l = filter (notin h) l).
  { intros l Hl. apply filter_ext_in'. intros x Hx. unfold notin. cbn [existsb].
    destruct (Nat.eqb_spec x c) as [->|]; [contradiction|reflexivity]. }
  destruct (Nat.eq_dec c d) as [->|Hne].
  - unfold notin at 1. cbn [existsb]. rewrite Nat.eqb_refl. cbn [orb negb].
    rewrite notin_remove by assumption. apply G. assumption.
  - destruct Hc as [->|Hc]; [congruence|]. cbn [filter].
    unfold notin at 1. cbn [existsb]. destruct (Nat.eqb_spec d c); [congruence|]. cbn [orb].
    fold (notin h d). rewrite (IH H2 Hc). reflexivity.
Qed.

Lemma henum_sum : forall rows cols, NoDup cols -> (forall c, In c cols -> (c < nZ)%nat) ->
  qsum (map (wgt rows cols) (henum nZ (length rows) cols)) = asum L q cl rows cols.
Proof.
  induction rows as [|r rs IH]; intros cols N B; cbn [length henum asum].
  - cbn [map]. rewrite qsum_cons, qsum_nil. unfold wgt. cbn [rw].
    rewrite (filter_ext_in' (notin []) (fun _ => true)) by reflexivity.
    replace (filter (fun _ : nat => true) cols) with cols; [ring|].
    clear. induction cols as [|c cols IH]; cbn; congruence.
  - rewrite map_app, qsum_app. f_equal.
    + rewrite map_map. rewrite <- (IH cols N B), <- qsum_scale. apply qsum_ext. intros h Hh.
      unfold wgt. cbn [rw]. rewrite Nat.ltb_irrefl.
      rewrite (filter_ext_in' (notin (nZ :: h)) (notin h)); [ring|].
      intros x Hx. unfold notin. cbn [existsb]. apply B in Hx.
      destruct (Nat.eqb_spec x nZ); [lia|reflexivity].
    + rewrite qsum_flat. apply qsum_ext. intros c Hc. rewrite map_map.
      rewrite <- (IH (rm c cols)).
      * rewrite <- qsum_scale. apply qsum_ext. intros h Hh. unfold wgt. cbn [rw].
        assert (Hlt := B c Hc). apply Nat.ltb_lt in Hlt. rewrite Hlt, filter_rm by assumption. ring.
      * apply remove_nodup. exact N.
      * intros d Hd. apply in_remove in Hd. apply B. tauto.
Qed.

Lemma rw_seq : forall h s, rw (seq s (length h)) h =
  qprod (map (fun m => if Nat.ltb (nth (m - s) h 0%nat) nZ then L m (nth (m - s) h 0%nat) else q m) (seq s (length h))).
Proof.
  induction h as [|x h IH]; intros s; cbn [length seq rw map]; [reflexivity|].
  rewrite qprod_cons, Nat.sub_diag. cbn [nth]. f_equal. rewrite (IH (S s)). f_equal.
  apply map_ext_in. intros m Hm. apply in_seq in Hm. replace (m - s)%nat with (S (m - S s)) by lia. reflexivity.
Qed.
End Enum.

Lemma hyp_wgt : forall nM nZ L pd cl h, length h = nM ->
  hyp_weight nM nZ L pd cl h = wgt L (fun r => 1 - pd r) cl nZ (seq 0 nM) (seq 0 nZ) h.
Proof.
  intros nM nZ L pd cl h <-. unfold hyp_weight, wgt. rewrite rw_seq. f_equal.
  f_equal. apply map_ext. intros m. rewrite Nat.sub_0_r. reflexivity.
Qed.

Lemma seq_not : forall n, ~ In n (seq 0 n).
Proof. intros n H. apply in_seq in H. lia. Qed.

Theorem association_sum_iff : forall nM nZ L pd cl v,
  association_sum nM nZ L pd cl v <-> v = asum L (fun r => 1 - pd r) cl (seq 0 nM) (seq 0 nZ).
Proof.
  intros nM nZ L pd cl v.
  assert (S0 : forall hs, NoDup hs -> (forall h, In h hs <-> association nM nZ true h) ->
     qsum (map (hyp_weight nM nZ L pd cl) hs) = asum L (fun r => 1 - pd r) cl (seq 0 nM) (seq 0 nZ)).
  { intros hs N I.
    rewrite <- (henum_sum L (fun r => 1 - pd r) cl nZ (seq 0 nM) (seq 0 nZ) (seq_NoDup _ _)).
    2:{ intros c Hc. apply in_seq in Hc. lia. }
    rewrite seq_length.
    rewrite (qsum_ext (hyp_weight nM nZ L pd cl) (wgt L (fun r => 1 - pd r) cl nZ (seq 0 nM) (seq 0 nZ)) hs).
    - apply qsum_perm, Permutation_map. apply NoDup_Permutation; [exact N|apply henum_nodup; [apply seq_NoDup|apply seq_not]|].
      intros h. rewrite I, henum_in by apply seq_not. symmetry. apply assoc_association.
    - intros h Hh. apply hyp_wgt. apply I in Hh. apply Hh. }
  split.
  - intros (hs & N & I & ->). auto.
  - intros ->. exists (henum nZ nM (seq 0 nZ)).
    assert (N : NoDup (henum nZ nM (seq 0 nZ))) by (apply henum_nodup; [apply seq_NoDup|apply seq_not]).
    assert (I : forall h, In h (henum nZ nM (seq 0 nZ)) <-> association nM nZ true h).
    { intros h. rewrite henum_in by apply seq_not. apply assoc_association. }
    split; [exact N|]. split; [exact I|]. symmetry. auto.
Qed.

Lemma map_nth_seq : forall (l : list nat), map (fun j => nth j l 0%nat) (seq 0 (length l)) = l.
Proof. exact MurtyProofs.map_nth_free. Qed.

Theorem block_sum_iff : forall L pd cl il jl v, NoDup jl ->
  (block_sum L pd cl il jl v <-> v = asum L (fun r => 1 - pd r) cl il jl).
Proof.
  intros L pd cl il jl v N. unfold block_sum. rewrite association_sum_iff.
  rewrite (asum_map L (fun r => 1 - pd r) cl (fun a => nth a il 0%nat) (fun b => nth b jl 0%nat)).
  - rewrite !map_nth_seq. reflexivity.
  - intros x y Hx Hy E. apply in_seq in Hx, Hy. apply (proj1 (NoDup_nth jl 0%nat) N); lia || exact E.
Qed.

(** ----- lexicographic enumeration ----- *)
Lemma fold_both : forall (P : nat -> bool) (f g : nat -> Qc) l v,
  fold_left (fun v a => if P a then v * f a else v * g a) l v = v * qprod (map (fun a => if P a then f a else g a) l).
Proof.
  intros P f g. induction l as [|a l IH]; intros v; cbn [fold_left map].
  - rewrite qprod_nil. ring.
  - rewrite IH, qprod_cons. destruct (P a); ring.
Qed.
Lemma fold_some : forall (P : nat -> bool) (f : nat -> Qc) l v,
  fold_left (fun v a => if P a then v * f a else v) l v = v * qprod (map f (filter P l)).
Proof.
  intros P f. induction l as [|a l IH]; intros v; cbn [fold_left filter].
  - cbn [map]. rewrite qprod_nil. ring.
  - rewrite IH. destruct (P a); cbn [map]; rewrite ?qprod_cons; ring.
Qed.

Lemma filter_map_comm : forall (f : nat -> nat) (P : nat -> bool) l, filter P (map f l) = map f (filter (fun x => P (f x)) l).
Proof. intros f P. induction l as [|x l IH]; cbn; [reflexivity|]. destruct (P (f x)); cbn; congruence. Qed.

Lemma map_nth_skip : forall k n (o : list nat), length o = (k + n)%nat ->
  map (fun a => nth a o 0%nat) (seq k n) = skipn k o.
Proof.
  induction k as [|k IH]; intros n o E.
  - cbn [skipn]. replace n with (length o) by (cbn in E; exact E). apply map_nth_seq.
  - destruct o as [|x o]; [discriminate|]. cbn [skipn]. rewrite <- (IH n o) by (cbn in E; lia).
    rewrite <- seq_shift, map_map. reflexivity.
Qed.

Lemma filter_lt_seq : forall nC nR, filter (fun x => Nat.ltb x nC) (seq 0 nC ++ repeat nC nR) = seq 0 nC.
Proof.
  intros nC nR. rewrite filter_app.
  assert (A : forall l, (forall x, In x l -> (x < nC)%nat) -> filter (fun x => Nat.ltb x nC) l = l).
  { induction l as [|x l IH]; intros H; [reflexivity|]. cbn [filter].
    assert (Hx := H x (or_introl eq_refl)). apply Nat.ltb_lt in Hx. rewrite Hx, IH; [reflexivity|].
    intros y Hy. apply H. right. exact Hy. }
  rewrite A by (intros x Hx; apply in_seq in Hx; lia).
  replace (filter (fun x => Nat.ltb x nC) (repeat nC nR)) with (@nil nat); [apply app_nil_r|].
  induction nR as [|k IH]; cbn [repeat filter]; [reflexivity|]. rewrite Nat.ltb_irrefl. exact IH.
Qed.

Lemma perm_filter : forall (P : nat -> bool) l m, Permutation l m -> Permutation (filter P l) (filter P m).
Proof.
  intros P l m H. induction H as [|x l l' H IH|x y l|l1 l2 l3 H1 IH1 H2 IH2]; cbn.
  - constructor.
  - destruct (P x); [constructor|]; exact IH.
  - destruct (P x), (P y); try constructor; apply Permutation_refl.
  - eapply perm_trans; eauto.
Qed.

(** What is left over of the measurements. *)
Lemma leftover : forall nR nC o, Permutation o (seq 0 nC ++ repeat nC nR) ->
  Permutation (filter (fun x => Nat.ltb x nC) (skipn nR o)) (filter (notin (firstn nR o)) (seq 0 nC)).
Proof.
  intros nR nC o P. apply (perm_filter (fun x => Nat.ltb x nC)) in P. rewrite filter_lt_seq in P.
  rewrite <- (firstn_skipn nR o) in P. rewrite filter_app in P.
  assert (N : NoDup (filter (fun x => Nat.ltb x nC) (firstn nR o) ++ filter (fun x => Nat.ltb x nC) (skipn nR o))).
  { eapply Permutation_NoDup; [apply Permutation_sym; exact P|apply seq_NoDup]. }
  apply NoDup_Permutation.
  - eapply nodup_app_r. exact N.
  - apply NoDup_filter, seq_NoDup.
  - intros x. split.
    + intros Hx. apply filter_In. split.
      * eapply Permutation_in; [exact P|]. apply in_or_app. right. exact Hx.
      * apply notin_true. intros K. apply filter_In in Hx. destruct Hx as [H1 H2].
        apply (nodup_app_disj _ _ x N); apply filter_In; auto.
    + intros Hx. apply filter_In in Hx. destruct Hx as [H1 H2]. apply notin_true in H2.
      apply (Permutation_in _ (Permutation_sym P)) in H1. apply in_app_or in H1.
      destruct H1 as [H1|H1]; [|exact H1]. apply filter_In in H1. tauto.
Qed.

Section Block.
Variable L : nat -> nat -> Qc.
Variables pd cl : nat -> Qc.
Variables il jl : list nat.
Notation nR := (length il).
Notation nC := (length jl).
Notation hw := (hyp_weight nR nC (fun a b => L (nth a il 0%nat) (nth b jl 0%nat))
                  (fun a => pd (nth a il 0%nat)) (fun b => cl (nth b jl 0%nat))).

Lemma nth_firstn : forall k a (o : list nat), (a < k)%nat -> nth a (firstn k o) 0%nat = nth a o 0%nat.
Proof.
  induction k as [|k IH]; intros a o H; [lia|].
  destruct o as [|x o]; [destruct a; reflexivity|]. destruct a as [|a]; [reflexivity|]. cbn. apply IH. lia.
Qed.

Lemma perm_weight_ok : forall o, Permutation o (seq 0 nC ++ repeat nC nR) ->
  perm_weight L pd cl il jl o = Val (hw (firstn nR o)).
Proof.
  intros o P. assert (Lo := Permutation_length P). rewrite app_length, seq_length, repeat_length in Lo.
  unfold perm_weight. replace (length o =? nR + nC) with true by (symmetry; apply Nat.eqb_eq; lia).
  cbv zeta. f_equal. rewrite fold_some, fold_both. unfold hyp_weight.
  rewrite Qcmult_1_l. f_equal.
  - f_equal. apply map_ext_in. intros a Ha. apply in_seq in Ha. rewrite nth_firstn by lia. reflexivity.
  - apply qprod_perm.
    assert (E : map (fun a => cl (nth (nth a o 0%nat) jl 0%nat)) (filter (fun a => Nat.ltb (nth a o 0%nat) nC) (seq nR nC)) =
                map (fun b => cl (nth b jl 0%nat)) (filter (fun x => Nat.ltb x nC) (skipn nR o))).
    { rewrite <- (map_nth_skip nR nC o) by lia. rewrite filter_map_comm, map_map. reflexivity. }
    rewrite E. apply Permutation_map. apply leftover. exact P.
Qed.

Lemma lex_loop_ok : forall outs s nP fuel z,
  (forall o, In o outs -> Permutation o (seq 0 nC ++ repeat nC nR)) ->
  (forall k, next_calls k s = Val (firstn k (combine (seq (S nP) (length outs)) outs ++ repeat (0%nat, z) k))) ->
  (length outs < fuel)%nat ->
  lex_sum L pd cl fuel il jl s = Val (qsum (map (fun o => hw (firstn nR o)) outs)).
Proof.
  induction outs as [|o outs IH]; intros s nP fuel z HP H Hf; destruct fuel as [|fuel]; try (cbn in Hf; lia).
  - specialize (H 1%nat). cbn in H. cbn [lex_sum]. destruct (next s) as [[[s' n] p]|u|]; try discriminate.
    cbn in *. injection H as -> ->. reflexivity.
  - assert (H1 := H 1%nat). cbn in H1. cbn [lex_sum]. destruct (next s) as [[[s' n] p]|u|] eqn:E; try discriminate.
    cbn in H1. injection H1 as -> ->. cbn [obind Nat.eqb].
    rewrite (perm_weight_ok o) by (apply HP; left; reflexivity). cbn [obind].
    rewrite (IH s' (S nP) fuel z); [reflexivity| | |cbn in Hf; lia].
    { intros o' Ho'. apply HP. right. exact Ho'. }
    intros k. specialize (H (S k)). cbn in H. rewrite E in H. cbn [obind] in H.
    destruct (next_calls k s') as [l|u|]; try discriminate. cbn in H. injection H as H. f_equal. rewrite H.
    assert (G : forall (x : nat * list nat) k l a a', (k <= a)%nat -> (k <= a')%nat ->
        firstn k (l ++ repeat x a) = firstn k (l ++ repeat x a')).
    { clear. induction k as [|k IHk]; intros l a a' Ha Ha'; auto.
      destruct l as [|c l]; simpl.
      - destruct a, a'; try lia. simpl. f_equal. apply (IHk []); lia.
      - f_equal. apply IHk; lia. }
    change ((0%nat, z) :: repeat (0%nat, z) k) with (repeat (0%nat, z) (S k)). apply G; lia.
Qed.

Lemma henum_length : forall nZ k cols, NoDup cols -> (length (henum nZ k cols) <= S (length cols) ^ k)%nat.
Proof.
  intros nZ. induction k as [|k IH]; intros cols N; cbn [henum Nat.pow length]; [lia|].
  rewrite app_length, map_length.
  assert (F : forall l, incl l cols -> (length (flat_map (fun c => map (cons c) (henum nZ k (rm c cols))) l) <=
     length l * S (length cols) ^ k)%nat).
  { induction l as [|c l IHl]; intros Hi; cbn [flat_map length]; [lia|].
    rewrite app_length, map_length.
    assert (A := IH (rm c cols) (remove_nodup c cols N)).
    assert (B : (S (length (rm c cols)) ^ k <= S (length cols) ^ k)%nat).
    { apply Nat.pow_le_mono_l. apply le_n_S. apply remove_length_le. }
    specialize (IHl (fun y Hy => Hi y (or_intror Hy))). cbn [Nat.mul]. lia. }
  specialize (F cols (incl_refl _)). specialize (IH cols N). lia.
Qed.

Theorem lex_block : (nR + nC <> 0)%nat ->
  exists v, lex_sum L pd cl (S (S nC ^ nR)) il jl (lex_new nR nC true) = Val v /\ block_sum L pd cl il jl v.
Proof.
  intros Hn. destruct (lex_enumerates nR nC true Hn) as (outs & Hc & Ha & Hi & Hp).
  replace (if Nat.eqb nR nC then true else true) with true in * by (destruct (Nat.eqb nR nC); reflexivity).
  cbv zeta in *. cbn iota in *.
  assert (N : NoDup (map (firstn nR) outs)) by (apply ascending_nodup; exact Ha).
  exists (qsum (map hw (map (firstn nR) outs))). split.
  - rewrite map_map.
    apply (lex_loop_ok outs _ 0 _ (repeat 0%nat (nR + nC))).
    + intros o Ho. apply Hp. exact Ho.
    + exact Hc.
    + assert (K := NoDup_incl_length N (l' := henum nC nR (seq 0 nC))).
      rewrite map_length in K.
      assert (K2 := henum_length nC nR (seq 0 nC) (seq_NoDup _ _)). rewrite seq_length in K2.
      assert (K3 : incl (map (firstn nR) outs) (henum nC nR (seq 0 nC))).
      { intros h Hh. apply henum_in; [apply seq_not|]. apply assoc_association. apply Hi. exact Hh. }
      specialize (K K3). lia.
  - exists (map (firstn nR) outs). auto.
Qed.
End Block.
