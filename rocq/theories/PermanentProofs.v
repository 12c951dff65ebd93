(** Proofs about MatPerm::calc. *)
From Coq Require Import ZArith QArith Qcanon List Bool Arith Lia Permutation.
From Verif Require Import Base ListUtil EnumLemmas PermanentModel PermanentSpec.
Import ListNotations.
Local Open Scope Qc_scope.

(** ----- the algebra ----- *)
Section Algebra.
Variable A : nat -> nat -> Qc.

Definition vadd (y : nat -> Qc) (c : nat) : nat -> Qc := fun i => y i + A i c.

Fixpoint P (rs : list nat) (y : nat -> Qc) : Qc :=
  match rs with [] => 1 | i :: r => y i * P r y end.

Fixpoint T (cs rs : list nat) (y : nat -> Qc) : Qc :=
  match cs with
  | [] => P rs y
  | c :: r => T r rs y - T r rs (vadd y c)
  end.

Lemma P_ext : forall rs y y', (forall i, y i = y' i) -> P rs y = P rs y'.
Proof. induction rs; simpl; intros; auto. rewrite H. f_equal. auto. Qed.

Lemma T_ext : forall cs rs y y', (forall i, y i = y' i) -> T cs rs y = T cs rs y'.
Proof.
  induction cs as [|c cs IH]; simpl; intros rs y y' H; [now apply P_ext|].
  rewrite (IH rs y y' H). rewrite (IH rs (vadd y c) (vadd y' c)); auto.
  intros i. unfold vadd. now rewrite H.
Qed.

Lemma T_swap : forall cs rs y c d, T cs rs (vadd (vadd y c) d) = T cs rs (vadd (vadd y d) c).
Proof. intros. apply T_ext. intros i. unfold vadd. ring. Qed.

Lemma qsum_sub : forall {X} (f g : X -> Qc) l,
  qsum (map f l) - qsum (map g l) = qsum (map (fun x => f x - g x) l).
Proof. intros X f g l. induction l; simpl; [ring|]. rewrite <- IHl. ring. Qed.

Lemma qsum_scale : forall {X} k (f : X -> Qc) l, qsum (map (fun x => k * f x) l) = k * qsum (map f l).
Proof. intros X k f l. induction l; simpl; [ring|]. rewrite IHl. ring. Qed.

Lemma qsum_ext : forall {X} (f g : X -> Qc) l, (forall x, In x l -> f x = g x) -> qsum (map f l) = qsum (map g l).
Proof. intros X f g l H. f_equal. now apply map_ext_in. Qed.

Lemma qsum_app : forall l m, qsum (l ++ m) = qsum l + qsum m.
Proof. induction l; simpl; intros; [ring|]. rewrite IHl. ring. Qed.

Lemma qsum_perm : forall l m, Permutation l m -> qsum l = qsum m.
Proof. intros l m H. induction H; simpl; auto; [now rewrite IHPermutation|ring|congruence]. Qed.

Notation rm := (remove Nat.eq_dec).

(** Expansion along the first row. *)
Lemma T_row : forall cs i rs y, NoDup cs ->
  T cs (i :: rs) y = y i * T cs rs y - qsum (map (fun c => A i c * T (rm c cs) rs (vadd y c)) cs).
Proof.
  induction cs as [|d cs IH]; intros i rs y Hnd.
  - simpl. ring.
  - inversion Hnd as [|? ? Hn Hnd']; subst. cbn [T map qsum fold_right].
    rewrite (IH i rs y Hnd'), (IH i rs (vadd y d) Hnd').
    assert (E1 : rm d (d :: cs) = cs).
    { cbn [remove]. destruct (Nat.eq_dec d d); [|congruence]. now apply notin_remove. }
    rewrite E1.
    assert (E2 : qsum (map (fun c => A i c * T (rm c (d :: cs)) rs (vadd y c)) cs) =
       qsum (map (fun c => A i c * T (rm c cs) rs (vadd y c)) cs) -
       qsum (map (fun c => A i c * T (rm c cs) rs (vadd (vadd y d) c)) cs)).
    { rewrite qsum_sub. apply qsum_ext. intros c Hc. cbn [remove].
      destruct (Nat.eq_dec c d) as [->|]; [contradiction|]. cbn [T]. rewrite (T_swap _ _ y d c). ring. }
    fold (qsum (map (fun c => A i c * T (rm c (d :: cs)) rs (vadd y c)) cs)).
    rewrite E2. change (vadd y d i) with (y i + A i d). ring.
Qed.

Lemma T_nil : forall cs y, cs <> [] -> T cs [] y = 0.
Proof.
  induction cs as [|c cs IH]; intros y H; [congruence|]. simpl. destruct cs as [|d cs].
  - simpl. ring.
  - rewrite !IH by discriminate. ring.
Qed.

Lemma qsum_zero : forall {X} (f : X -> Qc) l, (forall x, In x l -> f x = 0) -> qsum (map f l) = 0.
Proof.
  intros X f l H. induction l as [|a l IH]; simpl; auto. rewrite H by (now left).
  rewrite IH by (intros; apply H; now right). ring.
Qed.

Lemma T_short : forall rs cs y, NoDup cs -> (length rs < length cs)%nat -> T cs rs y = 0.
Proof.
  induction rs as [|i rs IH]; intros cs y Hnd Hl.
  - apply T_nil. destruct cs; [simpl in Hl; lia|discriminate].
  - rewrite T_row by auto. simpl in Hl. rewrite IH by (auto; lia).
    rewrite qsum_zero; [ring|]. intros c Hc. rewrite IH; [ring|now apply remove_nodup|].
    assert (H := remove_len c cs Hnd Hc). lia.
Qed.

Definition sign (n : nat) : Qc := if Nat.even n then 1 else -(1).
Lemma sign_S : forall n, sign (S n) = - sign n.
Proof. intros. unfold sign. rewrite Nat.even_succ, <- Nat.negb_even. destruct (Nat.even n); simpl; ring. Qed.

(** Ryser: the full alternating sum does not depend on y. *)
Lemma T_square : forall k r cs y, NoDup cs -> length cs = k ->
  T cs (seq r k) y = sign k * qsum (map (product_along A r) (enum k cs)).
Proof.
  induction k as [|k IH]; intros r cs y Hnd Hl.
  - destruct cs; [|discriminate]. unfold sign. simpl. ring.
  - cbn [seq]. rewrite T_row by auto. rewrite T_short by (auto; rewrite seq_length; lia).
    assert (E : qsum (map (product_along A r) (enum (S k) cs)) =
      qsum (map (fun c => A r c * qsum (map (product_along A (S r)) (enum k (rm c cs)))) cs)).
    { cbn [enum]. generalize cs at 2 4 as l. induction l as [|c l IHl]; [reflexivity|].
      cbn [flat_map map]. rewrite map_app, qsum_app, IHl. cbn [qsum fold_right]. f_equal.
      rewrite map_map. cbn [product_along]. apply qsum_scale. }
    rewrite E, sign_S.
    rewrite (qsum_ext _ (fun c => sign k * (A r c * qsum (map (product_along A (S r)) (enum k (rm c cs)))))).
    + rewrite qsum_scale. ring.
    + intros c Hc. rewrite IH; [ring|now apply remove_nodup|]. assert (H := remove_len c cs Hnd Hc). lia.
Qed.

(** Complementing the subsets. *)
Definition reflect (cs : list nat) (y : nat -> Qc) : nat -> Qc := fun i => - y i - qsum (map (A i) cs).

Lemma P_neg : forall rs y, P rs (fun i => - y i) = sign (length rs) * P rs y.
Proof.
  induction rs as [|i rs IH]; intros y; cbn [P length].
  - unfold sign. simpl. ring.
  - rewrite IH, sign_S. ring.
Qed.

Lemma T_reflect : forall cs rs y, T cs rs y = sign (length cs + length rs) * T cs rs (reflect cs y).
Proof.
  induction cs as [|c cs IH]; intros rs y.
  - cbn [T length Nat.add]. rewrite (P_ext rs (reflect [] y) (fun i => - y i)).
    + rewrite P_neg. unfold sign. destruct (Nat.even _); ring.
    + intros i. unfold reflect. simpl. ring.
  - cbn [T length Nat.add]. rewrite sign_S.
    rewrite (IH rs y), (IH rs (vadd y c)).
    rewrite (T_ext cs rs (reflect (c :: cs) y) (reflect cs (vadd y c))).
    2:{ intros i. unfold reflect, vadd. simpl. ring. }
    rewrite (T_ext cs rs (vadd (reflect (c :: cs) y) c) (reflect cs y)).
    2:{ intros i. unfold reflect, vadd. simpl. ring. }
    ring.
Qed.

(** ----- the Gray code traversal ----- *)
Variable n : nat.
Definition vec (y : nat -> Qc) : list Qc := map y (seq 0 n).
Notation Pn := (P (seq 0 n)).

Fixpoint down (m : nat) : list nat := match m with 0%nat => [] | S m' => m' :: down m' end.

Lemma vec_ext : forall y y', (forall i, y i = y' i) -> vec y = vec y'.
Proof. intros. unfold vec. apply map_ext. auto. Qed.

Lemma prod_from_P : forall rs y s, prod_from s (map y rs) = s * P rs y.
Proof.
  intros rs y. induction rs as [|i rs IH]; intros s; unfold prod_from in *; simpl; [ring|].
  rewrite IH. ring.
Qed.

Lemma add_col_vec : forall z j y, add_col A z j (vec y) = vec (fun i => y i + z * A i j).
Proof.
  intros z j y. unfold add_col, vec. rewrite map_length, seq_length.
  generalize 0%nat as r. induction n as [|k IH]; intros r; simpl; auto. f_equal. apply IH.
Qed.

Fixpoint odd_bits (g : list bool) : bool := match g with [] => false | b :: r => xorb b (odd_bits r) end.

Definition top (m : nat) : list bool := match m with 0%nat => [] | S k => repeat false k ++ [true] end.
Definition addtop (m : nat) (y : nat -> Qc) : nat -> Qc := match m with 0%nat => y | S k => vadd y k end.
Definition sgn (m : nat) (s : Qc) : Qc := match m with 0%nat => s | S _ => - s end.

Lemma top_length : forall m, length (top m) = m.
Proof. destruct m; simpl; auto. rewrite app_length, repeat_length. simpl. lia. Qed.

Lemma prun_app : forall a b k st, prun A (a + b) k st = let* st' := prun A a k st in prun A b (k + a) st'.
Proof.
  induction a as [|a IH]; intros b k st; simpl.
  - now rewrite Nat.add_0_r.
  - destruct (pstep A k st) as [st'|u|]; auto. simpl. rewrite IH.
    destruct (prun A a (S k) st'); auto. simpl. f_equal. lia.
Qed.

Lemma first_set_top : forall m r, first_set (repeat false m ++ true :: r) = Some m.
Proof. induction m; simpl; intros; auto. now rewrite IHm. Qed.

Lemma upd_app : forall {X} (l : list X) a r b, upd (l ++ a :: r) (length l) b = l ++ b :: r.
Proof. intros X l. induction l; simpl; intros; auto. now rewrite IHl. Qed.

(** The step that flips bit m when the low bits are [top m]. *)
Lemma flip_step : forall m b hs y s p k,
  Nat.even k = (match m with 0%nat => true | S _ => false end) ->
  pstep A k (PS (top m ++ b :: hs) (vec y) s p) =
  Val (PS (top m ++ negb b :: hs) (vec (fun i => y i + (if b then -(1) else 1) * A i m)) (- s)
          (p - s * Pn (fun i => y i + (if b then -(1) else 1) * A i m))).
Proof.
  intros m b hs y s p k Hk. unfold pstep. cbn [pg px ps pp].
  assert (Ej : (if Nat.even k then Val 0%nat else match first_set (top m ++ b :: hs) with
      Some i => Val (S i) | None => UB OutOfBounds end) = Val m).
  { rewrite Hk. destruct m as [|m]; auto. cbn [top]. rewrite <- app_assoc. cbn [app].
    now rewrite first_set_top. }
  rewrite Ej. cbn [obind].
  rewrite nth_error_app2 by (rewrite top_length; lia). rewrite top_length, Nat.sub_diag. cbn [nth_error].
  assert (Eu : upd (top m ++ b :: hs) m (negb b) = top m ++ negb b :: hs).
  { assert (H := upd_app (top m) b hs (negb b)). now rewrite top_length in H. }
  rewrite Eu. rewrite add_col_vec.
  assert (Ez : (if b then 1 - Q2Qc 2 else 1) = (if b then -(1) else 1)).
  { destruct b; auto. }
  rewrite Ez. unfold vec at 2. rewrite prod_from_P. do 2 f_equal; ring.
Qed.

Definition FB (m : nat) : Prop :=
  (forall hs y s p k, odd_bits hs = false -> Nat.even k = true ->
     prun A (2 ^ m - 1) k (PS (repeat false m ++ hs) (vec y) s p) =
     Val (PS (top m ++ hs) (vec (addtop m y)) (sgn m s) (p - s * Pn y + s * T (down m) (seq 0 n) y))) /\
  (forall hs y s p k, odd_bits hs = true -> (m <> 0%nat -> Nat.even k = true) ->
     prun A (2 ^ m - 1) k (PS (top m ++ hs) (vec (addtop m y)) s p) =
     Val (PS (repeat false m ++ hs) (vec y) (sgn m s)
             (p - s * Pn (addtop m y) + sgn m s * T (down m) (seq 0 n) y))).

Lemma pow_split : forall m, (2 ^ S m - 1 = (2 ^ m - 1) + (1 + (2 ^ m - 1)))%nat.
Proof. intros m. assert (2 ^ m <> 0)%nat by (apply Nat.pow_nonzero; lia). simpl. lia. Qed.

Lemma even_pow : forall m, m <> 0%nat -> Nat.even (2 ^ m) = true.
Proof. intros [|m] H; [congruence|]. apply Nat.even_spec. exists (2 ^ m)%nat. simpl. lia. Qed.

Lemma parity_mid : forall m k, Nat.even k = true ->
  Nat.even (k + (2 ^ m - 1)) = match m with 0%nat => true | S _ => false end.
Proof.
  intros m k Hk. destruct m as [|m].
  - simpl. now rewrite Nat.add_0_r.
  - assert (H := even_pow (S m) ltac:(lia)).
    assert (H0 : (2 ^ S m <> 0)%nat) by (apply Nat.pow_nonzero; lia).
    assert (E : Nat.even (S (k + (2 ^ S m - 1))) = true).
    { replace (S (k + (2 ^ S m - 1)))%nat with (k + 2 ^ S m)%nat by lia. now rewrite Nat.even_add, Hk, H. }
    rewrite Nat.even_succ, <- Nat.negb_even in E. now destruct (Nat.even (k + (2 ^ S m - 1))).
Qed.

Lemma parity_end : forall m k, Nat.even k = true -> m <> 0%nat -> Nat.even (S (k + (2 ^ m - 1))) = true.
Proof.
  intros m k Hk Hm. rewrite Nat.even_succ, <- Nat.negb_even, parity_mid by auto. destruct m; [congruence|reflexivity].
Qed.

Lemma low_split : forall m hs, repeat false (S m) ++ hs = repeat false m ++ false :: hs.
Proof. induction m; simpl; intros; auto. f_equal. apply IHm. Qed.

Lemma top_split : forall m hs, top (S m) ++ hs = repeat false m ++ true :: hs.
Proof. intros. cbn [top]. now rewrite <- app_assoc. Qed.

Lemma prun_1 : forall k st, prun A 1 k st = pstep A k st.
Proof. intros. simpl. destruct (pstep A k st); reflexivity. Qed.

Lemma FB_all : forall m, FB m.
Proof.
  induction m as [|m [IF IB]].
  - split; intros; cbn [repeat app top addtop sgn down T]; change (2 ^ 0 - 1)%nat with 0%nat; cbn [prun]; do 2 f_equal; ring.
  - split.
    + intros hs y s p k Ho Hk. rewrite pow_split, prun_app, low_split.
      rewrite (IF (false :: hs) y s p k) by (auto; simpl; now rewrite Ho). cbn [obind]. rewrite prun_app, prun_1.
      rewrite flip_step by (now apply parity_mid). cbn [obind negb].
      assert (Ev : forall i, addtop m y i + 1 * A i m = addtop m (vadd y m) i).
      { intros i. destruct m; simpl; unfold vadd; ring. }
      rewrite (vec_ext _ _ Ev), (P_ext _ _ _ Ev).
      rewrite IB.
      * rewrite top_split. cbn [addtop sgn down T]. do 2 f_equal; destruct m; simpl; ring.
      * simpl. now rewrite Ho.
      * intros Hm. rewrite Nat.add_1_r. now apply parity_end.
    + intros hs y s p k Ho Hk. specialize (Hk ltac:(lia)). rewrite pow_split, prun_app, top_split.
      cbn [addtop]. rewrite (IF (true :: hs) (vadd y m) s p k) by (auto; simpl; now rewrite Ho).
      cbn [obind]. rewrite prun_app, prun_1.
      rewrite flip_step by (now apply parity_mid). cbn [obind negb].
      assert (Ev : forall i, addtop m (vadd y m) i + -(1) * A i m = addtop m y i).
      { intros i. destruct m; simpl; unfold vadd; ring. }
      rewrite (vec_ext _ _ Ev), (P_ext _ _ _ Ev).
      rewrite IB.
      * rewrite low_split. cbn [sgn down T]. do 2 f_equal; destruct m; simpl; ring.
      * simpl. now rewrite Ho.
      * intros Hm. rewrite Nat.add_1_r. now apply parity_end.
Qed.

Lemma down_perm : forall m, Permutation (down m) (seq 0 m).
Proof.
  induction m as [|m IH]; simpl down; auto. rewrite seq_S. simpl.
  rewrite IH. apply Permutation_cons_append.
Qed.

Lemma fold_qsum : forall (f : nat -> Qc) l s, fold_left (fun a j => a + f j) l s = s + qsum (map f l).
Proof. intros f l. induction l as [|a l IH]; intros s; simpl; [ring|]. rewrite IH. ring. Qed.

End Algebra.

Lemma calc_value : forall A m, let n := S m in
  calc n n A = Val (qsum (map (product_along A 0) (enum n (down n)))).
Proof.
  intros A m n. unfold calc. rewrite Nat.eqb_refl.
  replace (n - 1)%nat with m by (unfold n; lia).
  assert (Hx : map (x_init A n) (seq 0 n) = vec n (x_init A n)) by reflexivity. rewrite Hx.
  assert (Er : repeat false n = repeat false m ++ [false]).
  { unfold n. rewrite <- (app_nil_r (repeat false (S m))). apply low_split. }
  rewrite Er.
  destruct (FB_all A n m) as [F _]. rewrite F by auto. cbn [obind pp].
  unfold vec. rewrite prod_from_P.
  set (y0 := fun i => - (Q2Qc (1 # 2) * qsum (map (A i) (down n)))).
  assert (Hhalf : Q2Qc (1 # 2) + Q2Qc (1 # 2) = 1) by (apply Qc_is_canon; reflexivity).
  assert (Hsum : forall i, fold_left (fun s j => s + A i j) (seq 0 n) 0 = qsum (map (A i) (down n))).
  { intros i. rewrite fold_qsum. rewrite (qsum_perm _ _ (Permutation_map (A i) (down_perm n))). ring. }
  assert (H1 : T A (down m) (seq 0 n) (x_init A n) = T A (down m) (seq 0 n) (vadd A y0 m)).
  { apply T_ext. intros i. unfold x_init, vadd, y0. rewrite Hsum.
    replace (n - 1)%nat with m by (unfold n; lia). ring. }
  assert (H2 : T A (down m) (seq 0 n) y0 = - T A (down m) (seq 0 n) (vadd A y0 m)).
  { rewrite T_reflect. rewrite (T_ext A (down m) (seq 0 n) (reflect A (down m) y0) (vadd A y0 m)).
    - rewrite (Permutation_length (down_perm m)), !seq_length.
      assert (Es : sign (m + n) = -(1)).
      { unfold sign, n. rewrite Nat.add_succ_r, Nat.even_succ, <- Nat.negb_even, Nat.even_add.
        destruct (Nat.even m); reflexivity. }
      rewrite Es. ring.
    - intros i. unfold reflect, vadd, y0. unfold n. cbn [down map qsum fold_right].
      fold (qsum (map (A i) (down m))). set (q := qsum (map (A i) (down m))).
      replace (- - (Q2Qc (1 # 2) * (A i m + q)) - q) with
        (- (Q2Qc (1 # 2) * (A i m + q)) + (Q2Qc (1 # 2) + Q2Qc (1 # 2)) * (A i m + q) - q) by ring.
      rewrite Hhalf. ring. }
  assert (H3 := T_square A n 0 (down n) y0).
  assert (Hnd : NoDup (down n)).
  { eapply Permutation_NoDup; [apply Permutation_sym, down_perm|apply seq_NoDup]. }
  assert (Hlen : length (down n) = n) by (rewrite (Permutation_length (down_perm n)), seq_length; auto).
  specialize (H3 Hnd Hlen). set (per := qsum (map (product_along A 0) (enum n (down n)))) in *.
  change (down n) with (m :: down m) in H3. cbn [T] in H3. rewrite H2 in H3.
  rewrite H1. set (t := T A (down m) (seq 0 n) (vadd A y0 m)) in *.
  set (w := P (seq 0 n) (x_init A n)).
  assert (Htwo : Q2Qc 2 = 1 + 1) by (apply Qc_is_canon; reflexivity). rewrite Htwo.
  f_equal. unfold sign in H3. destruct (Nat.even n).
  - transitivity (- t - t); [ring|]. rewrite H3. ring.
  - transitivity (- (- t - t)); [ring|]. rewrite H3. ring.
Qed.

Theorem calc_permanent : forall n A, n <> 0%nat -> exists v, calc n n A = Val v /\ is_permanent n A v.
Proof.
  intros [|m] A Hn; [congruence|]. rewrite calc_value. eexists. split; [reflexivity|].
  intros ps Hnd Hps. apply qsum_perm, Permutation_map.
  assert (Hnd2 : NoDup (down (S m))).
  { eapply Permutation_NoDup; [apply Permutation_sym, down_perm|apply seq_NoDup]. }
  assert (Hlen : length (down (S m)) = S m) by (rewrite (Permutation_length (down_perm (S m))), seq_length; auto).
  apply NoDup_Permutation; auto.
  - apply enum_nodup; auto.
  - intros p. rewrite Hps. rewrite enum_in by auto. split; intros H.
    + eapply perm_trans; [exact H|apply down_perm].
    + eapply perm_trans; [exact H|apply Permutation_sym, down_perm].
Qed.

Lemma calc_not_square : forall nr nc A, nr <> nc -> calc nr nc A = Val minus_dbl_max.
Proof. intros nr nc A H. unfold calc. now rewrite (proj2 (Nat.eqb_neq nr nc) H). Qed.

Lemma calc_empty : forall A, calc 0 0 A = Val (Q2Qc (- (2))).
Proof. intros A. unfold calc. simpl. f_equal. Qed.

Lemma calc_empty_wrong : forall A, calc 0 0 A = Val (Q2Qc (- (2))) /\ ~ is_permanent 0 A (Q2Qc (- (2))).
Proof.
  intros A. split; [apply calc_empty|]. intros H. specialize (H [[]]).
  assert (Hnd : NoDup [@nil nat]) by (constructor; [simpl; tauto|constructor]).
  specialize (H Hnd). discriminate H. intros p. simpl. split.
  - intros [<-|[]]. constructor.
  - intros Hp. left. symmetry. now apply Permutation_nil, Permutation_sym.
Qed.

Lemma permutations_exist : forall n, exists ps, NoDup ps /\
  (forall p, In p ps <-> Permutation p (seq 0 n)) /\ length ps = fact n.
Proof.
  intros n. exists (enum n (seq 0 n)).
  assert (H1 : NoDup (enum n (seq 0 n))) by (apply enum_nodup; [apply seq_NoDup|apply seq_length]).
  assert (H2 : forall p, In p (enum n (seq 0 n)) <-> Permutation p (seq 0 n)).
  { intros p. apply enum_in; [apply seq_NoDup|apply seq_length]. }
  split; auto. split; auto. now apply all_perms_length.
Qed.
