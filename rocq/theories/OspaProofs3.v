(** Matchings: symmetry, range, identity, triangle inequality and powers. *)
From Coq Require Import ZArith List Bool Arith QArith Qcanon Lia Permutation.
From Verif Require Import Base ListUtil QcLra OspaModel OspaSpec OspaProofs.
Import ListNotations.
Local Open Scope Z_scope.

Definition swap (ij : nat * nat) : nat * nat := (snd ij, fst ij).

Lemma matching_swap : forall n1 n2 M, matching n1 n2 M -> matching n2 n1 (map swap M).
Proof.
  intros n1 n2 M (H1 & H2 & H3). split; [|split].
  - rewrite map_map. exact H2.
  - rewrite map_map. exact H1.
  - intros i j H. apply in_map_iff in H. destruct H as ([a b] & E & H). injection E as <- <-. apply H3 in H. tauto.
Qed.

Lemma cost_swap : forall {A} (d : A -> A -> Z) p c X Y M,
  match_cost (fun x y => d y x) p c Y X (map swap M) = match_cost d p c X Y M.
Proof.
  intros A d p c X Y M. unfold match_cost. rewrite map_map, map_length, Nat.max_comm. f_equal.
  apply tot_ext. intros [i j] _. f_equal. unfold pair_cost, swap. cbn [fst snd]. destruct (nth_error Y j), (nth_error X i); reflexivity.
Qed.

Lemma least_swap : forall {A} (d : A -> A -> Z) p c X Y v, least d p c X Y v -> least (fun x y => d y x) p c Y X v.
Proof.
  intros A d p c X Y v [(M & HM & E) H]. split.
  - exists (map swap M). split; [now apply matching_swap|]. now rewrite cost_swap.
  - intros M' HM'. specialize (H (map swap M') (matching_swap _ _ _ HM')).
    rewrite <- (cost_swap (fun x y => d y x) p c Y X M'). exact H.
Qed.

Lemma least_unique : forall {A} (d : A -> A -> Z) p c X Y v w, least d p c X Y v -> least d p c X Y w -> v = w.
Proof. intros A d p c X Y v w [(M & HM & E) H] [(M' & HM' & E') H']. specialize (H M' HM'). specialize (H' M HM). lia. Qed.

Lemma matching_nil : forall n1 n2, matching n1 n2 [].
Proof. intros. split; [constructor|]. split; [constructor|]. intros i j []. Qed.

Lemma matching_len : forall n1 n2 M, matching n1 n2 M -> (length M <= n1 /\ length M <= n2)%nat.
Proof.
  intros n1 n2 M (H1 & H2 & H3). split.
  - rewrite <- (map_length fst), <- (seq_length n1 0). apply NoDup_incl_length; [auto|]. intros i Hi. apply in_map_iff in Hi.
    destruct Hi as ([a b] & <- & H). apply H3 in H. apply in_seq. simpl. lia.
  - rewrite <- (map_length snd), <- (seq_length n2 0). apply NoDup_incl_length; [auto|]. intros i Hi. apply in_map_iff in Hi.
    destruct Hi as ([a b] & <- & H). apply H3 in H. apply in_seq. simpl. lia.
Qed.

Lemma pair_cost_nonneg : forall {A} (d : A -> A -> Z) c X Y ij, 0 <= c -> (forall x y, 0 <= d x y) -> 0 <= pair_cost d c X Y ij.
Proof. intros A d c X Y ij Hc Hd. unfold pair_cost. destruct (nth_error X (fst ij)) as [x|], (nth_error Y (snd ij)) as [y|]; auto. specialize (Hd x y). lia. Qed.

Lemma match_cost_1 : forall {A} (d : A -> A -> Z) c X Y M, match_cost d 1 c X Y M =
  total_of (map (pair_cost d c X Y) M) + c * (Z.of_nat (Nat.max (length X) (length Y)) - Z.of_nat (length M)).
Proof. intros. unfold match_cost. change (Z.of_nat 1) with 1. rewrite Z.pow_1_r. f_equal. apply tot_ext. intros. apply Z.pow_1_r. Qed.

Lemma least_range : forall {A} (d : A -> A -> Z) c X Y v, 0 <= c -> (forall x y, 0 <= d x y) -> least d 1 c X Y v ->
  0 <= v <= c * Z.of_nat (Nat.max (length X) (length Y)).
Proof.
  intros A d c X Y v Hc Hd [(M & HM & E) H]. split.
  - rewrite <- E, match_cost_1. assert (L := matching_len _ _ _ HM). apply Z.add_nonneg_nonneg.
    + apply tot_nonneg. intros. now apply pair_cost_nonneg.
    + apply Z.mul_nonneg_nonneg; lia.
  - specialize (H [] (matching_nil _ _)). rewrite match_cost_1 in H. simpl in H. lia.
Qed.

(** Zero exactly for equal multisets. *)
Lemma tot_zero : forall {B} (f : B -> Z) l, (forall x, In x l -> 0 <= f x) -> total_of (map f l) = 0 -> forall x, In x l -> f x = 0.
Proof.
  intros B f. induction l as [|y l IH]; intros H E x []; cbn [map total_of fold_right] in E; fold (total_of (map f l)) in E;
  assert (A := tot_nonneg f l (fun z Hz => H z (or_intror Hz))); assert (A' := H y (or_introl eq_refl)).
  - subst. lia.
  - apply IH; auto. intros; apply H; now right. lia.
Qed.

Lemma pick_all : forall {A} (X : list A) l, Permutation l (seq 0 (length X)) -> Permutation (map (nth_error X) l) (map Some X).
Proof.
  intros A X l H. apply (Permutation_map (nth_error X)) in H. rewrite H. clear H.
  assert (E : map (nth_error X) (seq 0 (length X)) = map Some X); [|now rewrite E].
  induction X as [|x X IH]; [reflexivity|]. cbn [length seq map nth_error]. f_equal. rewrite <- seq_shift, map_map. exact IH.
Qed.

Lemma perm_some : forall {A} (X Y : list A), Permutation (map Some X) (map Some Y) -> Permutation X Y.
Proof.
  intros A X Y H. apply Permutation_map_inv in H. destruct H as (l & E & P).
  assert (X = l); [|now subst; symmetry].
  clear P. revert l E. induction X as [|x X IH]; intros [|y l] E; try discriminate; auto. simpl in E. injection E as -> E. f_equal. auto.
Qed.

Lemma least_zero_le : forall {A} (d : A -> A -> Z) c X Y v, 0 < c -> (forall x y, 0 <= d x y) -> (forall x y, d x y = 0 <-> x = y) ->
  least d 1 c X Y v -> Permutation X Y -> v = 0.
Proof.
  intros A d c X Y v Hc Hd H0 Hl P. assert (R := least_range d c X Y v ltac:(lia) Hd Hl). destruct Hl as [_ H].
  assert (Hlen := Permutation_length P). apply Permutation_sym, Permutation_nth_error in P. destruct P as (_ & f & Hinj & Hf).
  set (M := map (fun i => (i, f i)) (seq 0 (length X))).
  assert (HM : matching (length X) (length Y) M).
  { split; [|split].
    - unfold M. rewrite map_map. cbn [fst]. rewrite map_id. apply seq_NoDup.
    - unfold M. rewrite map_map. cbn [snd]. apply FinFun.Injective_map_NoDup; [exact Hinj|apply seq_NoDup].
    - intros i j Hi. unfold M in Hi. apply in_map_iff in Hi. destruct Hi as (k & E & Hk). injection E as <- <-. apply in_seq in Hk.
      split; [lia|]. apply nth_error_Some. rewrite <- Hf. apply nth_error_Some. lia. }
  specialize (H M HM). rewrite match_cost_1 in H.
  assert (EM : length M = length X) by (unfold M; rewrite map_length, seq_length; reflexivity).
  rewrite EM, <- Hlen, Nat.max_id, Z.sub_diag, Z.mul_0_r, Z.add_0_r in H.
  assert (E : total_of (map (pair_cost d c X Y) M) = 0); [|lia].
  rewrite (tot_const _ 0); [lia|]. intros [i j] Hi. unfold M in Hi. apply in_map_iff in Hi. destruct Hi as (k & E & Hk). injection E as <- <-.
  unfold pair_cost. cbn [fst snd]. rewrite <- Hf. apply in_seq in Hk.
  destruct (nth_error X k) as [x|] eqn:Ex; [|apply nth_error_None in Ex; lia].
  assert (Q : d x x = 0) by now apply H0. lia.
Qed.

Lemma least_zero : forall {A} (d : A -> A -> Z) c X Y v, 0 < c -> (forall x y, 0 <= d x y) -> (forall x y, d x y = 0 <-> x = y) ->
  least d 1 c X Y v -> (v = 0 <-> Permutation X Y).
Proof.
  intros A d c X Y v Hc Hd H0 Hl. assert (R := least_range d c X Y v ltac:(lia) Hd Hl). destruct Hl as [(M & HM & E) H]. split.
  - intros ->. rewrite match_cost_1 in E. destruct (matching_len _ _ _ HM) as [L1 L2].
    assert (S1 : 0 <= total_of (map (pair_cost d c X Y) M)) by (apply tot_nonneg; intros; apply pair_cost_nonneg; [lia|auto]).
    assert (S2 : Z.of_nat (Nat.max (length X) (length Y)) - Z.of_nat (length M) = 0) by nia.
    rewrite S2, Z.mul_0_r, Z.add_0_r in E.
    assert (Z0 := tot_zero _ _ (fun x _ => pair_cost_nonneg d c X Y x ltac:(lia) Hd) E).
    destruct HM as (N1 & N2 & N3).
    assert (P1 : Permutation (map fst M) (seq 0 (length X))).
    { apply NoDup_Permutation_bis; [auto|rewrite seq_length, map_length; lia|]. intros i Hi. apply in_map_iff in Hi.
      destruct Hi as ([a b] & <- & Hi). apply N3 in Hi. apply in_seq. simpl. lia. }
    assert (P2 : Permutation (map snd M) (seq 0 (length Y))).
    { apply NoDup_Permutation_bis; [auto|rewrite seq_length, map_length; lia|]. intros i Hi. apply in_map_iff in Hi.
      destruct Hi as ([a b] & <- & Hi). apply N3 in Hi. apply in_seq. simpl. lia. }
    apply perm_some. rewrite <- (pick_all X _ P1), <- (pick_all Y _ P2), !map_map.
    assert (E' : map (fun x => nth_error X (fst x)) M = map (fun x => nth_error Y (snd x)) M); [|now rewrite E'].
    apply map_ext_in. intros [i j] Hij. cbn [fst snd]. assert (Q := Z0 _ Hij). destruct (N3 i j Hij). unfold pair_cost in Q. cbn [fst snd] in Q.
    destruct (nth_error X i) as [x|] eqn:Ex; [|apply nth_error_None in Ex; lia].
    destruct (nth_error Y j) as [y|] eqn:Ey; [|apply nth_error_None in Ey; lia].
    f_equal. apply H0. lia.
  - intros P. eapply least_zero_le; eauto. split; eauto.
Qed.


(** Triangle inequality. *)
Lemma nodup_map_inj : forall {B} (f : nat -> B) l, (forall x y, In x l -> In y l -> f x = f y -> x = y) -> NoDup l -> NoDup (map f l).
Proof.
  intros B f. induction l as [|x l IH]; intros H Hn; [constructor|]. inversion Hn as [|? ? H1 H2]; subst. simpl. constructor.
  - intros Hc. apply in_map_iff in Hc. destruct Hc as (y & E & Hy). apply H1. rewrite <- (H y x); auto; [now right|now left].
  - apply IH; auto. intros a b Ha Hb. apply H; now right.
Qed.

Lemma sub_perm : forall (a b : list nat), NoDup a -> incl a b -> exists r, Permutation b (a ++ r).
Proof.
  induction a as [|x a IH]; intros b Hn Hi; [exists b; reflexivity|]. inversion Hn as [|? ? H1 H2]; subst.
  assert (Hx : In x b) by (apply Hi; now left). apply in_split in Hx. destruct Hx as (b1 & b2 & ->).
  destruct (IH (b1 ++ b2) H2) as [r Hr].
  - intros y Hy. assert (Q : In y (b1 ++ x :: b2)) by (apply Hi; now right). apply in_app_or in Q. apply in_or_app.
    destruct Q as [Q|[->|Q]]; [auto|contradiction|auto].
  - exists r. simpl. rewrite <- Hr. symmetry. apply Permutation_middle.
Qed.

Lemma tot_incl : forall (f : nat -> Z) a b, NoDup a -> incl a b -> (forall x, In x b -> 0 <= f x) -> total_of (map f a) <= total_of (map f b).
Proof.
  intros f a b Hn Hi Hf. destruct (sub_perm a b Hn Hi) as [r Hr]. rewrite (tot_perm _ _ (Permutation_map f Hr)), map_app, tot_app.
  assert (Q : 0 <= total_of (map f r)); [|lia]. apply tot_nonneg. intros x Hx. apply Hf. apply (Permutation_in _ (Permutation_sym Hr)). apply in_or_app. auto.
Qed.

Definition row_of (M : list (nat * nat)) (j : nat) : nat :=
  match find (fun ij => Nat.eqb (snd ij) j) M with Some ij => fst ij | None => 0%nat end.

Lemma row_of_in : forall M j, In j (map snd M) -> In (row_of M j, j) M.
Proof.
  intros M j H. unfold row_of. destruct (find (fun ij => Nat.eqb (snd ij) j) M) as [[a b]|] eqn:E.
  - apply find_some in E. destruct E as [E1 E2]. cbn [fst snd] in *. apply Nat.eqb_eq in E2. now subst.
  - apply in_map_iff in H. destruct H as (ij & <- & Hi). apply (find_none _ _ E) in Hi. now rewrite Nat.eqb_refl in Hi.
Qed.

Lemma functional : forall {B C} (M : list (B * C)) a b b', NoDup (map fst M) -> In (a, b) M -> In (a, b') M -> b = b'.
Proof.
  intros B C. induction M as [|[x y] M IH]; intros a b b' Hn H1 H2; [destruct H1|]. simpl in Hn. inversion Hn as [|? ? N1 N2]; subst.
  destruct H1 as [H1|H1], H2 as [H2|H2].
  - congruence.
  - injection H1 as -> ->. exfalso. apply N1. apply in_map_iff. exists (a, b'). auto.
  - injection H2 as -> ->. exfalso. apply N1. apply in_map_iff. exists (a, b). auto.
  - eapply IH; eauto.
Qed.

Lemma functional_snd : forall (M : list (nat * nat)) a a' b, NoDup (map snd M) -> In (a, b) M -> In (a', b) M -> a = a'.
Proof.
  intros M a a' b Hn H1 H2. apply (functional (map swap M) b a a').
  - rewrite map_map. exact Hn.
  - apply in_map_iff. exists (a, b). auto.
  - apply in_map_iff. exists (a', b). auto.
Qed.

Lemma by_columns : forall (f : nat * nat -> Z) M, NoDup (map snd M) ->
  total_of (map f M) = total_of (map (fun j => f (row_of M j, j)) (map snd M)).
Proof.
  intros f M Hn. rewrite map_map. apply tot_ext. intros [i j] H. cbn [snd]. f_equal. f_equal.
  eapply functional_snd; eauto. apply row_of_in. apply in_map_iff. exists (i, j). auto.
Qed.

Definition memb (x : nat) (l : list nat) : bool := existsb (Nat.eqb x) l.
Lemma memb_iff : forall x l, memb x l = true <-> In x l.
Proof.
  intros x l. unfold memb. rewrite existsb_exists. split; [intros (y & Hy & E); apply Nat.eqb_eq in E; now subst|].
  intros H. exists x. split; [auto|apply Nat.eqb_refl].
Qed.

Lemma compose : forall {A} (d : A -> A -> Z) c X Y Z0 M1 M2, 0 <= c -> (forall x y, 0 <= d x y) ->
  (forall x y z, d x z <= d x y + d y z) ->
  matching (length X) (length Y) M1 -> matching (length Y) (length Z0) M2 ->
  exists M, matching (length X) (length Z0) M /\ (length M1 + length M2 <= length M + length Y)%nat /\
    total_of (map (pair_cost d c X Z0) M) <= total_of (map (pair_cost d c X Y) M1) + total_of (map (pair_cost d c Y Z0) M2).
Proof.
  intros A d c X Y Z0 M1 M2 Hc Hd Ht (A1 & A2 & A3) (B1 & B2 & B3).
  set (J1 := map snd M1). set (J2 := map fst M2). set (M2' := map swap M2).
  set (f := row_of M1). set (g := row_of M2').
  assert (EJ2 : J2 = map snd M2') by (unfold J2, M2'; rewrite map_map; reflexivity).
  set (J := filter (fun j => memb j J2) J1).
  assert (Jin : forall j, In j J <-> In j J1 /\ In j J2) by (intros j; unfold J; rewrite filter_In, memb_iff; tauto).
  assert (Hf : forall j, In j J -> In (f j, j) M1) by (intros j Hj; apply Jin in Hj; apply row_of_in; tauto).
  assert (Hg : forall j, In j J -> In (j, g j) M2).
  { intros j Hj. apply Jin in Hj. destruct Hj as [_ Hj]. rewrite EJ2 in Hj. apply row_of_in in Hj. unfold M2' at 2 in Hj. apply in_map_iff in Hj.
    destruct Hj as ([a b] & E & Hab). injection E as E1 E2. unfold g. rewrite <- E1, <- E2. exact Hab. }
  assert (NJ : NoDup J) by (apply NoDup_filter; exact A2).
  exists (map (fun j => (f j, g j)) J). split; [split; [|split]|split].
  - rewrite map_map. cbn [fst]. apply nodup_map_inj; [|auto]. intros x y Hx Hy E. apply Hf in Hx, Hy. rewrite E in Hx.
    eapply (functional M1); eauto.
  - rewrite map_map. cbn [snd]. apply nodup_map_inj; [|auto]. intros x y Hx Hy E. apply Hg in Hx, Hy. rewrite E in Hx.
    eapply (functional_snd M2); eauto.
  - intros i k H. apply in_map_iff in H. destruct H as (j & E & Hj). injection E as <- <-. split; [eapply A3, Hf; eauto|eapply B3, Hg; eauto].
  - rewrite map_length.
    assert (L1 : length M1 = length J1) by (unfold J1; now rewrite map_length). assert (L2 : length M2 = length J2) by (unfold J2; now rewrite map_length).
    assert (S1 := filter_split_len (fun j => memb j J2) J1). fold J in S1.
    assert (S2 : (length (filter (fun x => negb (memb x J2)) J1 ++ J2) <= length (seq 0 (length Y)))%nat).
    { apply NoDup_incl_length.
      - apply nodup_app; [apply NoDup_filter; exact A2|exact B1|]. intros x Hx Hx2. apply filter_In in Hx. destruct Hx as [_ Hx].
        apply negb_true_iff in Hx. apply memb_iff in Hx2. congruence.
      - intros x Hx. apply in_seq. apply in_app_or in Hx. destruct Hx as [Hx|Hx].
        + apply filter_In in Hx. destruct Hx as [Hx _]. apply in_map_iff in Hx. destruct Hx as ([a b] & <- & Hx). apply A3 in Hx. simpl. lia.
        + apply in_map_iff in Hx. destruct Hx as ([a b] & <- & Hx). apply B3 in Hx. simpl. lia. }
    rewrite app_length, seq_length in S2. lia.
  - rewrite map_map.
    assert (T1 : total_of (map (fun j => pair_cost d c X Y (f j, j)) J) <= total_of (map (pair_cost d c X Y) M1)).
    { rewrite (by_columns _ M1) by exact A2. apply tot_incl; [auto|intros j Hj; now apply Jin in Hj|]. intros. now apply pair_cost_nonneg. }
    assert (T2 : total_of (map (fun j => pair_cost d c Y Z0 (j, g j)) J) <= total_of (map (pair_cost d c Y Z0) M2)).
    { replace (total_of (map (pair_cost d c Y Z0) M2)) with (total_of (map (fun ij => pair_cost d c Y Z0 (swap ij)) M2')).
      - rewrite (by_columns _ M2') by (rewrite <- EJ2; exact B1). rewrite <- EJ2. apply tot_incl; [auto|intros j Hj; now apply Jin in Hj|].
        intros. now apply pair_cost_nonneg.
      - unfold M2'. rewrite map_map. apply tot_ext. intros [a b] _. reflexivity. }
    eapply Z.le_trans; [|apply Z.add_le_mono; [exact T1|exact T2]].
    replace (total_of (map (fun j => pair_cost d c X Y (f j, j)) J) + total_of (map (fun j => pair_cost d c Y Z0 (j, g j)) J))
      with (total_of (map (fun j => pair_cost d c X Y (f j, j) + pair_cost d c Y Z0 (j, g j)) J)).
    + apply tot_le. intros j Hj. destruct (A3 _ _ (Hf j Hj)) as [I1 I2]. destruct (B3 _ _ (Hg j Hj)) as [I3 I4].
      unfold pair_cost. cbn [fst snd].
      destruct (nth_error X (f j)) as [x|] eqn:Ex; [|apply nth_error_None in Ex; lia].
      destruct (nth_error Y j) as [y|] eqn:Ey; [|apply nth_error_None in Ey; lia].
      destruct (nth_error Z0 (g j)) as [z|] eqn:Ez; [|apply nth_error_None in Ez; lia].
      specialize (Ht x y z). assert (Q1 := Hd x y). assert (Q2 := Hd y z). lia.
    + clear. induction J as [|j l IH]; [reflexivity|]. cbn [map total_of fold_right]. unfold total_of in IH. rewrite IH. lia.
Qed.

Lemma triangle : forall {A} (d : A -> A -> Z) c X Y Z0 u v w, 0 <= c -> (forall x y, 0 <= d x y) ->
  (forall x y z, d x z <= d x y + d y z) ->
  least d 1 c X Y u -> least d 1 c Y Z0 v -> least d 1 c X Z0 w ->
  w + c * (Z.of_nat (Nat.max (length X) (length Y)) + Z.of_nat (Nat.max (length Y) (length Z0))
           - Z.of_nat (Nat.max (length X) (length Z0)) - Z.of_nat (length Y)) <= u + v.
Proof.
  intros A d c X Y Z0 u v w Hc Hd Ht [(M1 & H1 & <-) _] [(M2 & H2 & <-) _] [_ H3].
  destruct (compose d c X Y Z0 M1 M2 Hc Hd Ht H1 H2) as (M & HM & HL & HT). specialize (H3 M HM). rewrite !match_cost_1 in *. nia.
Qed.

(** Powers. *)
Lemma chebyshev_pair : forall x y p, 0 <= x -> 0 <= y -> x * y ^ Z.of_nat p + x ^ Z.of_nat p * y <= x ^ Z.of_nat (S p) + y ^ Z.of_nat (S p).
Proof.
  intros x y p Hx Hy. rewrite !Nat2Z.inj_succ, !Z.pow_succ_r by lia.
  destruct (Z.le_ge_cases x y) as [H|H].
  - assert (Q := Z.pow_le_mono_l x y (Z.of_nat p) ltac:(lia)). nia.
  - assert (Q := Z.pow_le_mono_l y x (Z.of_nat p) ltac:(lia)). nia.
Qed.

Definition powsum (p : nat) (l : list Z) : Z := total_of (map (fun v => v ^ Z.of_nat p) l).

Lemma powsum_cons : forall p x l, powsum p (x :: l) = x ^ Z.of_nat p + powsum p l.
Proof. reflexivity. Qed.

Lemma powsum_nonneg : forall p l, (forall x, In x l -> 0 <= x) -> 0 <= powsum p l.
Proof. intros. unfold powsum. apply tot_nonneg. intros. apply Z.pow_nonneg. auto. Qed.

Lemma chebyshev : forall p l, (forall x, In x l -> 0 <= x) -> powsum 1 l * powsum p l <= Z.of_nat (length l) * powsum (S p) l.
Proof.
  intros p. induction l as [|x l IH]; intros H; [simpl; unfold powsum; simpl; lia|].
  assert (Hl : forall y, In y l -> 0 <= y) by (intros; apply H; now right). assert (Hx : 0 <= x) by (apply H; now left). specialize (IH Hl).
  assert (Q : x * powsum p l + x ^ Z.of_nat p * powsum 1 l <= Z.of_nat (length l) * x ^ Z.of_nat (S p) + powsum (S p) l).
  { clear IH H. induction l as [|y l IH]; [unfold powsum; simpl; lia|].
    assert (Hy : 0 <= y) by (apply Hl; now left). specialize (IH (fun z Hz => Hl z (or_intror Hz))). rewrite !powsum_cons.
    assert (C := chebyshev_pair x y p Hx Hy). change (Z.of_nat 1) with 1. rewrite Z.pow_1_r.
    replace (Z.of_nat (length (y :: l))) with (Z.of_nat (length l) + 1) by (simpl length; lia). nia. }
  rewrite !powsum_cons. change (Z.of_nat 1) with 1. rewrite Z.pow_1_r.
  replace (Z.of_nat (length (x :: l))) with (Z.of_nat (length l) + 1) by (simpl length; lia).
  rewrite Nat2Z.inj_succ, Z.pow_succ_r in * by lia. nia.
Qed.

Lemma power_mean : forall p l, (forall x, In x l -> 0 <= x) -> powsum 1 l ^ Z.of_nat (S p) <= Z.of_nat (length l) ^ Z.of_nat p * powsum (S p) l.
Proof.
  intros p l H. induction p as [|p IH].
  - change (Z.of_nat 0) with 0. change (Z.of_nat 1) with 1. rewrite Z.pow_0_r, Z.pow_1_r. lia.
  - rewrite (Nat2Z.inj_succ (S p)), Z.pow_succ_r by lia. rewrite (Nat2Z.inj_succ p), (Z.pow_succ_r (Z.of_nat (length l))) by lia.
    assert (C := chebyshev (S p) l H). assert (N1 := powsum_nonneg 1 l H). assert (N2 := powsum_nonneg (S p) l H).
    assert (N3 : 0 <= Z.of_nat (length l) ^ Z.of_nat p) by (apply Z.pow_nonneg; lia). rewrite (Nat2Z.inj_succ p) in IH. nia.
Qed.

Lemma sum_power : forall p l, (forall x, In x l -> 0 <= x) -> powsum (S p) l <= powsum 1 l ^ Z.of_nat (S p).
Proof.
  intros p l H. induction p as [|p IH].
  - change (Z.of_nat 1) with 1. rewrite Z.pow_1_r. lia.
  - rewrite (Nat2Z.inj_succ (S p)), Z.pow_succ_r by lia.
    assert (Q : powsum (S (S p)) l <= powsum 1 l * powsum (S p) l).
    { clear IH. induction l as [|x l IH]; [unfold powsum; simpl; lia|].
      assert (Hl : forall y, In y l -> 0 <= y) by (intros; apply H; now right). assert (Hx : 0 <= x) by (apply H; now left). specialize (IH Hl).
      rewrite !powsum_cons. assert (N1 := powsum_nonneg 1 l Hl). assert (N2 := powsum_nonneg (S p) l Hl).
      rewrite (Nat2Z.inj_succ (S p)), Z.pow_succ_r by lia. change (Z.of_nat 1) with 1. rewrite Z.pow_1_r.
      assert (N3 : 0 <= x ^ Z.of_nat (S p)) by (apply Z.pow_nonneg; lia). nia. }
    assert (N1 := powsum_nonneg 1 l H). nia.
Qed.

Lemma match_values : forall {A} (d : A -> A -> Z) c X Y M, matching (length X) (length Y) M -> 0 <= c -> (forall x y, 0 <= d x y) ->
  exists V, (forall x, In x V -> 0 <= x) /\ length V = Nat.max (length X) (length Y) /\ forall p, match_cost d p c X Y M = powsum p V.
Proof.
  intros A d c X Y M HM Hc Hd. set (n := Nat.max (length X) (length Y)).
  exists (map (pair_cost d c X Y) M ++ repeat c (n - length M)). split; [|split].
  - intros x Hx. apply in_app_or in Hx. destruct Hx as [Hx|Hx].
    + apply in_map_iff in Hx. destruct Hx as (ij & <- & _). now apply pair_cost_nonneg.
    + apply repeat_spec in Hx. now subst.
  - rewrite app_length, map_length, repeat_length. assert (L := matching_len _ _ _ HM). unfold n. lia.
  - intros p. unfold powsum, match_cost. rewrite map_app, tot_app, map_map. f_equal.
    rewrite (tot_const _ (c ^ Z.of_nat p)).
    + rewrite repeat_length. assert (L := matching_len _ _ _ HM). f_equal. unfold n. lia.
    + intros x Hx. apply repeat_spec in Hx. now subst.
Qed.

Lemma power_bound : forall {A} (d : A -> A -> Z) c X Y M M' p, 0 <= c -> (forall x y, 0 <= d x y) ->
  matching (length X) (length Y) M -> matching (length X) (length Y) M' ->
  match_cost d 1 c X Y M <= match_cost d 1 c X Y M' ->
  match_cost d (S p) c X Y M <= Z.of_nat (Nat.max (length X) (length Y)) ^ Z.of_nat p * match_cost d (S p) c X Y M'.
Proof.
  intros A d c X Y M M' p Hc Hd H H' Hle.
  destruct (match_values d c X Y M H Hc Hd) as (V & V1 & V2 & V3). destruct (match_values d c X Y M' H' Hc Hd) as (W & W1 & W2 & W3).
  rewrite !V3, !W3 in *. eapply Z.le_trans; [apply (sum_power p V V1)|]. rewrite <- W2.
  eapply Z.le_trans; [|apply (power_mean p W W1)]. apply Z.pow_le_mono_l. split; [apply (powsum_nonneg 1 V V1)|exact Hle].
Qed.
