(** Proofs about CostMatrixGeneral::partition (C15). *)
From Coq Require Import ZArith List Bool Arith Lia Permutation Relations.
From Verif Require Import Base ListUtil HungarianModel PartitionModel PartitionSpec.
Import ListNotations.
Local Open Scope nat_scope.

Definition full (b : block) : Prop := fst b <> [] /\ snd b <> [].
Definition hollow (b : block) : Prop := (exists i, b = ([i], [])) \/ (exists j, b = ([], [j])).

Lemma block_dec : forall x y : block, {x = y} + {x <> y}.
Proof. intros. decide equality; apply list_eq_dec; apply Nat.eq_dec. Qed.

Ltac psolve := apply (proj2 (Permutation_count_occ block_dec _ _)); intro; repeat rewrite count_occ_app; simpl;
  repeat rewrite count_occ_app; simpl;
  repeat match goal with |- context [block_dec ?a ?b] => destruct (block_dec a b) end; lia.

Lemma full_test : forall il jl : list nat,
  (Nat.eqb (length il) 0 || Nat.eqb (length jl) 0)%bool = false <-> full (il, jl).
Proof.
  intros il jl. unfold full. simpl. destruct il, jl; simpl; split; intros H; try discriminate;
    try (destruct H; congruence); split; discriminate.
Qed.

Section Merge.
Variable B : list block.
Hypothesis HB : Forall (fun b => full b \/ hollow b) B.
Let ncc := length B.

Definition zblock (ab : list block) : block := (concat (map fst ab), concat (map snd ab)).

Definition minv (n : nat) (z : option nat) (A : list block) : Prop :=
  match z with
  | None => Permutation A B /\ (forall k b, k < n -> nth_error A k = Some b -> full b)
  | Some z0 => exists P1 P2 ab, A = P1 ++ zblock ab :: P2 /\ length P1 = z0 /\ z0 < n /\
      Permutation (P1 ++ P2 ++ ab) B /\ Forall full P1 /\
      (forall k b, k < n - S z0 -> nth_error P2 k = Some b -> full b) /\ Forall hollow ab
  end.

Lemma hollow_of : forall il jl, In (il, jl) B ->
  (Nat.eqb (length il) 0 || Nat.eqb (length jl) 0)%bool = true -> hollow (il, jl).
Proof.
  intros il jl Hin H. rewrite Forall_forall in HB. destruct (HB _ Hin) as [F|F]; auto.
  apply full_test in F. congruence.
Qed.

Lemma list_last : forall A (l : list A), l = [] \/ exists l' y, l = l' ++ [y].
Proof. intros. destruct l using rev_ind; eauto. Qed.

Lemma swap_last : forall A1 x A2 D, exists A',
  swap (A1 ++ x :: A2 ++ D) (length A1) (length A1 + length A2) = Val (A' ++ x :: D) /\
  length A' = length A1 + length A2 /\
  ((A2 = [] /\ A' = A1) \/ exists A2' y, A2 = A2' ++ [y] /\ A' = A1 ++ y :: A2').
Proof.
  intros A1 x A2 D. unfold swap.
  assert (E1 : nth_error (A1 ++ x :: A2 ++ D) (length A1) = Some x)
    by (rewrite nth_error_app2, Nat.sub_diag by lia; reflexivity).
  rewrite E1. destruct (list_last _ A2) as [->|(A2' & y & ->)].
  - exists A1. simpl in E1 |- *. rewrite Nat.add_0_r, E1. split; [|split; [lia|left; auto]].
    rewrite (upd_same _ _ _ _ E1), (upd_same _ _ _ _ E1). reflexivity.
  - exists (A1 ++ y :: A2'). rewrite !app_length. simpl.
    rewrite (nth_error_app2 A1) by lia.
    replace (length A1 + (length A2' + 1) - length A1) with (S (length A2')) by lia. simpl.
    rewrite <- app_assoc. simpl. rewrite nth_error_app2, Nat.sub_diag by lia. simpl.
    split; [|split; [lia|right; eauto]].
    rewrite (upd_app2 _ A1) by lia. rewrite Nat.sub_diag. simpl.
    rewrite upd_app2 by lia.
    replace (length A1 + (length A2' + 1) - length A1) with (S (length A2')) by lia. simpl.
    rewrite upd_app2, Nat.sub_diag by lia. simpl. rewrite <- !app_assoc. simpl. reflexivity.
Qed.

Lemma merge_ok : forall fuel A D n z merged,
  length A + merged = ncc -> n <= length A ->
  length A - n < fuel -> minv n z A ->
  exists A' D' z' merged', merge_zero fuel ncc (A ++ D) n z merged = Val (A' ++ D', z', merged') /\
    length A' + merged' = ncc /\ minv (length A') z' A'.
Proof.
  induction fuel as [|fuel IH]; intros A D n z merged Hl Hn Hf HI; [lia|].
  simpl. replace (ncc - merged) with (length A) by lia.
  destruct (Nat.ltb_spec n (length A)) as [L|L].
  2:{ exists A, D, z, merged. split; auto. split; auto. replace (length A) with n by lia. auto. }
  destruct (nth_error_ex _ A n L) as [x Hx].
  rewrite nth_error_app1 by lia. rewrite Hx. destruct x as [il jl].
  destruct (Nat.eqb (length il) 0 || Nat.eqb (length jl) 0)%bool eqn:T.
  - destruct z as [z0|].
    + destruct HI as (P1 & P2 & ab & EA & Hz & Hzn & HP & F1 & F2 & Fa).
      assert (Hx2 : nth_error P2 (n - S z0) = Some (il, jl)).
      { rewrite EA in Hx. rewrite nth_error_app2 in Hx by lia.
        replace (n - length P1) with (S (n - S z0)) in Hx by lia. exact Hx. }
      apply (@nth_error_split block) in Hx2. destruct Hx2 as (Q1 & Q2 & -> & HQ1).
      assert (Hin : In (il, jl) B).
      { apply (Permutation_in _ HP). rewrite !in_app_iff. right. left. right. left. auto. }
      assert (Hh := hollow_of _ _ Hin T).
      set (x := ((il, jl) : block)) in *.
      assert (E1 : (match il with
                    | i :: _ => Val (push_i (A ++ D) z0 i)
                    | [] => match jl with j :: _ => Val (push_j (A ++ D) z0 j) | [] => UB OutOfBounds end
                    end) = Val ((P1 ++ zblock (ab ++ [x]) :: Q1) ++ x :: Q2 ++ D)).
      { assert (En : nth_error (A ++ D) z0 = Some (zblock ab)).
        { rewrite EA. rewrite <- app_assoc. rewrite nth_error_app2 by lia.
          replace (z0 - length P1) with 0 by lia. reflexivity. }
        assert (Eu : forall v, upd (A ++ D) z0 v = (P1 ++ v :: Q1) ++ x :: Q2 ++ D).
        { intros v. rewrite EA. rewrite <- app_assoc. rewrite upd_app2 by lia.
          replace (z0 - length P1) with 0 by lia. simpl. rewrite <- !app_assoc. reflexivity. }
        unfold push_i, push_j. rewrite En. unfold zblock at 1 2.
        destruct Hh as [[i Hi]|[j Hj]].
        - unfold x in Hi. injection Hi as -> ->. rewrite Eu. f_equal.
          unfold zblock, x. rewrite !map_app, !concat_app. simpl. rewrite app_nil_r. reflexivity.
        - unfold x in Hj. injection Hj as -> ->. rewrite Eu. f_equal.
          unfold zblock, x. rewrite !map_app, !concat_app. simpl. rewrite app_nil_r. reflexivity. }
      rewrite E1. cbn [obind].
      destruct (swap_last (P1 ++ zblock (ab ++ [x]) :: Q1) x Q2 D) as (A' & Es & Hl' & HA').
      assert (HlA : length A = length P1 + S (length Q1 + S (length Q2)))
        by (rewrite EA, !app_length; simpl; rewrite app_length; simpl; lia).
      assert (Hl1 : length (P1 ++ zblock (ab ++ [x]) :: Q1) = n).
      { rewrite app_length. cbn [length]. clear - HQ1 Hz Hzn. lia. }
      rewrite Hl1 in Es, Hl'. replace (ncc - S merged) with (n + length Q2) by lia.
      rewrite Es. cbn [obind].
      apply IH; [lia|lia|lia|].
      destruct HA' as [[-> ->]|(Q2' & y & -> & ->)].
      * exists P1, Q1, (ab ++ [x]). split; auto. split; auto. split; auto. split.
        { rewrite <- HP. psolve. }
        split; auto. split.
        { intros k b Hk Hb. apply (F2 k b Hk). rewrite nth_error_app1; auto. now apply nth_error_lt in Hb. }
        apply Forall_app. split; auto.
      * exists P1, (Q1 ++ y :: Q2'), (ab ++ [x]). rewrite <- app_assoc. split; auto. split; auto. split; auto. split.
        { rewrite <- HP. psolve. }
        split; auto. split.
        { intros k b Hk Hb. apply (F2 k b Hk). rewrite nth_error_app1 in Hb by lia.
          rewrite nth_error_app1 by lia. exact Hb. }
        apply Forall_app. split; auto.
    + destruct HI as [HP F]. apply IH; [auto|lia|lia|].
      apply (@nth_error_split block) in Hx. destruct Hx as (P1 & P2 & -> & H1).
      exists P1, P2, [(il, jl)].
      assert (Hh : hollow (il, jl)).
      { apply hollow_of; auto. apply (Permutation_in _ HP). apply in_app_iff. right. left. auto. }
      split. { unfold zblock. simpl. rewrite !app_nil_r. reflexivity. }
      split; auto. split; [lia|]. split. { rewrite <- HP. psolve. }
      split.
      { apply Forall_forall. intros b Hb. apply In_nth_error in Hb. destruct Hb as [k Hk].
        assert (k < length P1) by (now apply nth_error_lt in Hk).
        apply (F k b); [lia|]. rewrite nth_error_app1; auto. }
      split; [intros; lia|]. constructor; auto.
  - apply full_test in T. apply IH; [auto|lia|lia|].
    destruct z as [z0|].
    + destruct HI as (P1 & P2 & ab & EA & Hz & Hzn & HP & F1 & F2 & Fa).
      exists P1, P2, ab. split; auto. split; auto. split; [lia|]. split; auto. split; auto. split; auto.
      intros k b Hk Hb. destruct (Nat.eq_dec k (n - S z0)) as [->|Hne].
      * rewrite EA in Hx. rewrite nth_error_app2 in Hx by lia.
        replace (n - length P1) with (S (n - S z0)) in Hx by lia. simpl in Hx. rewrite Hx in Hb.
        injection Hb as <-. auto.
      * apply (F2 k); auto. lia.
    + destruct HI as [HP F]. split; auto. intros k b Hk Hb.
      destruct (Nat.eq_dec k n) as [->|Hne]; [|apply (F k b); auto; lia].
      rewrite Hx in Hb. injection Hb as <-. auto.
Qed.

(** Final state of the loop. *)
Lemma merge_final : exists A D z merged,
  merge_zero (S (S (ncc + ncc))) ncc B 0 None 0 = Val (A ++ D, z, merged) /\
  length A = ncc - merged /\
  match z with
  | None => Permutation A B /\ Forall full A
  | Some z0 => exists P1 P2 ab, A = P1 ++ zblock ab :: P2 /\ length P1 = z0 /\
      Permutation (P1 ++ P2 ++ ab) B /\ Forall full (P1 ++ P2) /\ Forall hollow ab
  end.
Proof.
  destruct (merge_ok (S (S (ncc + ncc))) B [] 0 None 0) as (A & D & z & merged & E & Hl & HI).
  - unfold ncc. lia.
  - lia.
  - fold ncc. lia.
  - split; auto. intros; lia.
  - rewrite app_nil_r in E. exists A, D, z, merged. split; auto. split; [lia|].
    destruct z as [z0|].
    + destruct HI as (P1 & P2 & ab & EA & Hz & Hzn & HP & F1 & F2 & Fa).
      exists P1, P2, ab. split; auto. split; auto. split; auto. split; auto.
      apply Forall_app. split; auto. apply Forall_forall. intros b Hb.
      apply In_nth_error in Hb. destruct Hb as [k Hk]. apply (F2 k b); auto.
      assert (k < length P2) by (now apply nth_error_lt in Hk).
      rewrite EA, app_length. simpl. lia.
    + destruct HI as [HP F]. split; auto. apply Forall_forall. intros b Hb.
      apply In_nth_error in Hb. destruct Hb as [k Hk]. apply (F k b); auto. now apply nth_error_lt in Hk.
Qed.
End Merge.

Lemma concat_split : forall (f : nat -> nat) N l, (forall i, In i l -> f i < N) ->
  Permutation (concat (map (fun c => filter (fun i => Nat.eqb (f i) c) l) (seq 0 N))) l.
Proof.
  intros f N l. induction l as [|a l IH]; intros H.
  - clear H. simpl. induction (seq 0 N); simpl; auto.
  - eapply Permutation_trans; [|apply perm_skip, IH; intros; apply H; now right].
    assert (Ha : In (f a) (seq 0 N)) by (apply in_seq; specialize (H a (or_introl eq_refl)); lia).
    assert (Hnd := seq_NoDup N 0). clear H IH.
    induction (seq 0 N) as [|c cs IH]; [destruct Ha|]. simpl.
    inversion Hnd as [|? ? Hn Hnd']; subst.
    destruct (Nat.eqb_spec (f a) c) as [E|E].
    + simpl. apply perm_skip. apply Permutation_app_head.
      assert (G : forall cs, ~ In (f a) cs ->
        map (fun c0 => filter (fun i => Nat.eqb (f i) c0) (a :: l)) cs =
        map (fun c0 => filter (fun i => Nat.eqb (f i) c0) l) cs).
      { induction cs0 as [|c0 cs0 IH0]; simpl; intros Hni; auto.
        destruct (Nat.eqb_spec (f a) c0); [exfalso; apply Hni; left; congruence|].
        f_equal. apply IH0. tauto. }
      rewrite <- (G cs) by congruence. reflexivity.
    + destruct Ha as [Ha|Ha]; [congruence|].
      rewrite (IH Ha Hnd'). apply Permutation_sym, Permutation_middle.
Qed.

Section Main.
Variable C : mat.
Variable ml : Z.
Variables nR nC : nat.
Variable cc : nat -> nat.
Variable ncc : nat.
Hypothesis Hcc : components_of C ml nR nC cc ncc.
Let conn := connected C ml nR nC.
Let B := fill cc ncc nR nC.

Definition touched (v : rc) : Prop :=
  match v with
  | Row i => exists j, j < nC /\ (ml < C i j)%Z
  | Col j => exists i, i < nR /\ (ml < C i j)%Z
  end.

Lemma conn_touched : forall u v, conn u v -> u = v \/ (touched u /\ touched v).
Proof.
  induction 1 as [u v H|u|u v H IH|u v w H1 IH1 H2 IH2].
  - destruct H as [i j Hi Hj H]. right. split; simpl; eauto.
  - auto.
  - destruct IH as [->|[? ?]]; auto.
  - destruct IH1 as [->|[? ?]], IH2 as [->|[? ?]]; auto.
Qed.

Lemma fill_in : forall b, In b B <-> exists c, c < ncc /\ nth_error B c = Some b.
Proof.
  intros b. split.
  - intros H. apply In_nth_error in H. destruct H as [c Hc]. exists c. split; auto.
    apply nth_error_lt in Hc. unfold B, fill in Hc. now rewrite map_length, seq_length in Hc.
  - intros (c & _ & H). now apply nth_error_In in H.
Qed.

Lemma fill_nth : forall c b, nth_error B c = Some b -> forall v,
  inside b v <-> in_range nR nC v /\ cc (num nR v) = c.
Proof.
  intros c b H v. unfold B, fill in H.
  assert (Hc : c < ncc) by (apply nth_error_lt in H; now rewrite map_length, seq_length in H).
  assert (Es : nth_error (seq 0 ncc) c = Some c).
  { rewrite (nth_error_nth' _ 0) by (now rewrite seq_length). now rewrite seq_nth. }
  rewrite (map_nth_error _ _ _ Es) in H. injection H as <-.
  destruct v as [i|j]; simpl; rewrite filter_In, in_seq, Nat.eqb_eq; intuition lia.
Qed.

Lemma B_length : length B = ncc.
Proof. unfold B, fill. now rewrite map_length, seq_length. Qed.

Lemma fill_nodup : forall b, In b B -> NoDup (fst b) /\ NoDup (snd b).
Proof.
  intros b H. unfold B, fill in H. apply in_map_iff in H. destruct H as (c & <- & _). simpl.
  split; apply NoDup_filter, seq_NoDup.
Qed.

Lemma single : forall (l : list nat) a, NoDup l -> (forall x, In x l <-> x = a) -> l = [a].
Proof.
  intros l a Hnd H. apply Permutation_length_1_inv. apply NoDup_Permutation; auto.
  - constructor; [auto|constructor].
  - intros x. rewrite H. simpl. intuition.
Qed.

Lemma empty_list : forall (l : list nat), (forall x, ~ In x l) -> l = [].
Proof. intros [|a l] H; auto. exfalso. apply (H a). now left. Qed.

(** Every component has rows and columns, or is a single row or column. *)
Lemma fill_kinds : Forall (fun b => full b \/ hollow b) B.
Proof.
  apply Forall_forall. intros b Hb. assert (Hb' := Hb). apply fill_in in Hb. destruct Hb as (c & Hc & Hn).
  destruct Hcc as (K1 & K2 & K3). destruct (fill_nodup b Hb') as [N1 N2].
  destruct (K2 c Hc) as (u & Hu & Ec).
  assert (Iu : inside b u) by (apply (fill_nth c b Hn); auto).
  destruct (fst b) as [|i0 il] eqn:E1; destruct (snd b) as [|j0 jl] eqn:E2.
  - destruct u; simpl in Iu; rewrite ?E1, ?E2 in Iu; destruct Iu.
  - right. right. exists j0. destruct b as [il jl']. simpl in E1, E2. subst il jl'. f_equal.
    apply single; auto. intros x. split; [|intros ->; now left].
    intros Hx. assert (Ix : inside ([], j0 :: jl) (Col x)) by exact Hx.
    assert (I0 : inside ([], j0 :: jl) (Col j0)) by (left; auto).
    apply (fill_nth c _ Hn) in Ix, I0. destruct Ix as [Rx Cx], I0 as [R0 C0].
    assert (Hc0 : conn (Col x) (Col j0)) by (apply K3; auto; congruence).
    destruct (conn_touched _ _ Hc0) as [E|[(i & Hi & Hs) _]]; [congruence|].
    exfalso. assert (Hc1 : conn (Row i) (Col x)) by (apply rst_step; constructor; auto).
    apply K3 in Hc1; auto. assert (In (i) []); [|auto].
    change (inside ([], j0 :: jl) (Row i)). apply (fill_nth c _ Hn). split; auto. congruence.
  - right. left. exists i0. destruct b as [il' jl]. simpl in E1, E2. subst il' jl. f_equal.
    apply single; auto. intros x. split; [|intros ->; now left].
    intros Hx. assert (Ix : inside (i0 :: il, []) (Row x)) by exact Hx.
    assert (I0 : inside (i0 :: il, []) (Row i0)) by (left; auto).
    apply (fill_nth c _ Hn) in Ix, I0. destruct Ix as [Rx Cx], I0 as [R0 C0].
    assert (Hc0 : conn (Row x) (Row i0)) by (apply K3; auto; congruence).
    destruct (conn_touched _ _ Hc0) as [E|[(j & Hj & Hs) _]]; [congruence|].
    exfalso. assert (Hc1 : conn (Row x) (Col j)) by (apply rst_step; constructor; auto).
    apply K3 in Hc1; auto. assert (In j []); [|auto].
    change (inside (i0 :: il, []) (Col j)). apply (fill_nth c _ Hn). split; auto. congruence.
  - left. unfold full. rewrite E1, E2. split; discriminate.
Qed.

Lemma fill_conn : forall b u v, In b B -> in_range nR nC v -> inside b u ->
  (inside b v <-> conn u v).
Proof.
  intros b u v Hb Hv Hu. apply fill_in in Hb. destruct Hb as (c & Hc & Hn).
  apply (fill_nth c b Hn) in Hu. destruct Hu as [Ru Cu]. rewrite (fill_nth c b Hn).
  destruct Hcc as (K1 & K2 & K3). unfold conn. rewrite <- K3 by auto. intuition congruence.
Qed.

Lemma full_significant : forall b, In b B -> full b -> significant C ml b.
Proof.
  intros b Hb [F1 F2]. destruct (fst b) as [|i il] eqn:E1; [congruence|]. destruct (snd b) as [|j jl] eqn:E2; [congruence|].
  assert (I1 : inside b (Row i)) by (simpl; rewrite E1; left; auto).
  assert (I2 : inside b (Col j)) by (simpl; rewrite E2; left; auto).
  assert (R2 : in_range nR nC (Col j)).
  { assert (Hb' := Hb). apply fill_in in Hb'. destruct Hb' as (c & _ & Hn). now apply (fill_nth c b Hn) in I2. }
  assert (R1 : in_range nR nC (Row i)).
  { assert (Hb' := Hb). apply fill_in in Hb'. destruct Hb' as (c & _ & Hn). now apply (fill_nth c b Hn) in I1. }
  assert (Hc := proj1 (fill_conn b _ _ Hb R2 I1) I2).
  destruct (conn_touched _ _ Hc) as [E|[(j' & Hj' & Hs) _]]; [discriminate|].
  exists i, j'. split; auto. split; auto.
  change (inside b (Col j')). apply (fill_conn b (Row i)); auto. apply rst_step. constructor; auto.
Qed.

Lemma hollow_in : forall b u v, In b B -> hollow b -> inside b u -> inside b v -> u = v.
Proof.
  intros b u v _ [[i ->]|[j ->]] Hu Hv; destruct u, v; simpl in *; intuition congruence.
Qed.

Lemma zblock_in : forall ab v, inside (zblock ab) v <-> exists b, In b ab /\ inside b v.
Proof.
  intros ab [i|j]; unfold zblock; simpl; rewrite in_concat; split.
  - intros (l & Hl & Hi). apply in_map_iff in Hl. destruct Hl as (b & <- & Hb). eauto.
  - intros (b & Hb & Hi). exists (fst b). split; auto. now apply in_map.
  - intros (l & Hl & Hi). apply in_map_iff in Hl. destruct Hl as (b & <- & Hb). eauto.
  - intros (b & Hb & Hi). exists (snd b). split; auto. now apply in_map.
Qed.

Lemma zblock_zero : forall ab, (forall b, In b ab -> In b B) -> Forall hollow ab ->
  ~ significant C ml (zblock ab).
Proof.
  intros ab Hab Hh (i & j & Hi & Hj & Hs).
  change (inside (zblock ab) (Row i)) in Hi. change (inside (zblock ab) (Col j)) in Hj.
  apply zblock_in in Hi, Hj. destruct Hi as (b & Hb & Hi), Hj as (b' & Hb' & Hj).
  assert (HbB := Hab b Hb). assert (HbB' := Hab b' Hb').
  assert (Rj : in_range nR nC (Col j)).
  { apply fill_in in HbB'. destruct HbB' as (c & _ & Hn). now apply (fill_nth c b' Hn) in Hj. }
  assert (Ri : in_range nR nC (Row i)).
  { apply fill_in in HbB. destruct HbB as (c & _ & Hn). now apply (fill_nth c b Hn) in Hi. }
  assert (Hjb : inside b (Col j)).
  { apply (fill_conn b (Row i)); auto. apply rst_step. constructor; auto. }
  rewrite Forall_forall in Hh. assert (E := hollow_in b _ _ HbB (Hh b Hb) Hi Hjb). discriminate.
Qed.

Lemma B_rows : Permutation (concat (map fst B)) (seq 0 nR).
Proof.
  unfold B, fill. rewrite map_map. simpl. apply concat_split.
  intros i Hi. apply in_seq in Hi. destruct Hcc as (K1 & _). apply (K1 (Row i)). simpl. lia.
Qed.

Lemma B_cols : Permutation (concat (map snd B)) (seq 0 nC).
Proof.
  unfold B, fill. rewrite map_map. simpl. apply (concat_split (fun j => cc (j + nR))).
  intros i Hi. apply in_seq in Hi. destruct Hcc as (K1 & _). apply (K1 (Col i)). simpl. lia.
Qed.

Lemma perm_concat : forall (l l' : list (list nat)), Permutation l l' -> Permutation (concat l) (concat l').
Proof.
  induction 1; simpl; auto.
  - now apply Permutation_app_head.
  - rewrite !app_assoc. apply Permutation_app_tail, Permutation_app_comm.
  - etransitivity; eauto.
Qed.

Lemma firstn_blocks : forall (f : block -> list nat) (A D : list block),
  flat_map (fun p => f (nth p (A ++ D) ([], []))) (seq 0 (length A)) = concat (map f A).
Proof.
  intros f A. induction A as [|b A IH] using rev_ind; intros D; auto.
  rewrite app_length, seq_app, flat_map_app, map_app, concat_app. simpl.
  rewrite <- app_assoc. rewrite IH. f_equal. rewrite app_nil_r, app_nth2 by lia.
  rewrite Nat.sub_diag. simpl. now rewrite app_nil_r.
Qed.

Theorem partition_ok : nR + nC <> 0 -> exists g np b flag,
  partition cc ncc (cg_new C nR nC ml) = Val (g, np) /\
  nParts g = np /\ gC g = C /\ cmats g = (fun _ => None) /\
  (forall p, p < np -> getPartitionSize g p = Val (length (fst (b p)), length (snd (b p)), flag p)) /\
  (forall p ext, p < np -> exists g' a, getPartition g p ext = Val (g', Got (Some a) (fst (b p)) (snd (b p)) (flag p))) /\
  Permutation (flat_map (fun p => fst (b p)) (seq 0 np)) (seq 0 nR) /\
  Permutation (flat_map (fun p => snd (b p)) (seq 0 np)) (seq 0 nC) /\
  (forall p, p < np -> (flag p = true <-> significant C ml (b p))) /\
  (forall p q, p < np -> q < np -> flag p = false -> flag q = false -> p = q) /\
  (forall i j, i < nR -> j < nC -> (ml < C i j)%Z ->
     exists p, p < np /\ flag p = true /\ In i (fst (b p)) /\ In j (snd (b p))) /\
  (forall p u v, p < np -> flag p = true -> inside (b p) u -> in_range nR nC v ->
     (inside (b p) v <-> connected C ml nR nC u v)).
Proof.
  intros Hsz. apply Nat.eqb_neq in Hsz.
  destruct (merge_final B fill_kinds) as (A & D & z & merged & E & Hl & HF).
  rewrite B_length in E, Hl.
  set (g := CG C nR nC ml (Some (A ++ D)) z (ncc - merged) (fun _ => None) (fun _ => false)).
  exists g, (length A), (fun p => nth p (A ++ D) ([], [])), (fun p => negb (is_zero g p)).
  split. { unfold partition. cbn [nParts cg_new Nat.eqb gR gCol gC minL]. rewrite Hsz. fold B. rewrite E. cbn [obind]. rewrite Hl. reflexivity. }
  split. { simpl. auto. }
  split; auto. split; auto.
  assert (Hnth : forall p, p < length A -> nth_error (A ++ D) p = Some (nth p (A ++ D) ([], []))).
  { intros p Hp. apply nth_error_nth'. rewrite app_length. lia. }
  split. { intros p Hp. unfold getPartitionSize. simpl. rewrite (Hnth p Hp). now destruct (nth p (A ++ D) ([], [])). }
  split.
  { intros p ext Hp. unfold getPartition. simpl. rewrite <- Hl.
    apply Nat.ltb_lt in Hp as Hp'. rewrite Hp', (Hnth p Hp).
    destruct (nth p (A ++ D) ([], [])) as [il jl]. simpl. eexists. eexists. reflexivity. }
  rewrite !firstn_blocks.
  destruct z as [z0|].
  - destruct HF as (P1 & P2 & ab & EA & Hz & HP & F & Fa).
    assert (Hinb : forall x, In x P1 \/ In x P2 \/ In x ab -> In x B).
    { intros x Hx. apply (Permutation_in _ HP). rewrite !in_app_iff. auto. }
    assert (Hz0 : nth z0 (A ++ D) ([], []) = zblock ab).
    { rewrite EA, <- app_assoc, app_nth2 by lia. replace (z0 - length P1) with 0 by lia. reflexivity. }
    assert (Hoth : forall p, p < length A -> p <> z0 -> In (nth p (A ++ D) ([], [])) (P1 ++ P2)).
    { intros p Hp Hne. rewrite EA, <- app_assoc. apply in_app_iff.
      destruct (Nat.lt_ge_cases p z0) as [Hlt|Hge].
      - left. rewrite app_nth1 by lia. apply nth_In. lia.
      - right. rewrite app_nth2 by lia.
        destruct (p - length P1) as [|k] eqn:Ek; [lia|]. simpl.
        rewrite EA, app_length in Hp. simpl in Hp.
        rewrite app_nth1 by lia. apply nth_In. lia. }
    assert (HothB : forall p, p < length A -> p <> z0 ->
       In (nth p (A ++ D) ([], [])) B /\ full (nth p (A ++ D) ([], []))).
    { intros p Hp Hne. assert (H := Hoth p Hp Hne). split.
      - apply Hinb. apply in_app_iff in H. tauto.
      - rewrite Forall_forall in F. auto. }
    assert (Hflag : forall p, negb (is_zero g p) = true <-> p <> z0).
    { intros p. unfold is_zero, g. simpl. rewrite negb_true_iff. apply Nat.eqb_neq. }
    split.
    { rewrite EA, map_app, concat_app. simpl. rewrite <- B_rows.
      rewrite <- (perm_concat _ _ (Permutation_map fst HP)). rewrite !map_app, !concat_app.
      apply Permutation_app_head. simpl. apply Permutation_app_comm. }
    split.
    { rewrite EA, map_app, concat_app. simpl. rewrite <- B_cols.
      rewrite <- (perm_concat _ _ (Permutation_map snd HP)). rewrite !map_app, !concat_app.
      apply Permutation_app_head. simpl. apply Permutation_app_comm. }
    split.
    { intros p Hp. rewrite Hflag. split.
      - intros Hne. destruct (HothB p Hp Hne). now apply full_significant.
      - intros Hs ->. rewrite Hz0 in Hs. revert Hs. apply zblock_zero; auto. }
    split.
    { intros p q Hp Hq. rewrite !negb_false_iff. unfold is_zero, g. simpl. rewrite !Nat.eqb_eq. congruence. }
    split.
    { intros i j Hi Hj Hs.
      assert (Hib : exists b, In b B /\ inside b (Row i)).
      { assert (Hin : In i (concat (map fst B))).
        { apply (Permutation_in _ (Permutation_sym B_rows)). apply in_seq. lia. }
        apply in_concat in Hin. destruct Hin as (l & Hl' & Hin). apply in_map_iff in Hl'.
        destruct Hl' as (b & <- & Hb). eauto. }
      destruct Hib as (b & Hb & Hib).
      assert (Hjb : inside b (Col j)).
      { apply (fill_conn b (Row i)); auto. apply rst_step. constructor; auto. }
      assert (Hbs : In b (P1 ++ P2)).
      { apply (Permutation_in _ (Permutation_sym HP)) in Hb as Hb2. rewrite !in_app_iff in Hb2. rewrite in_app_iff.
        destruct Hb2 as [?|[?|Hb2]]; auto. exfalso.
        rewrite Forall_forall in Fa. assert (Hx := hollow_in b _ _ Hb (Fa b Hb2) Hib Hjb). discriminate. }
      assert (Hp : exists p, p < length A /\ p <> z0 /\ nth p (A ++ D) ([], []) = b).
      { apply in_app_iff in Hbs. destruct Hbs as [Hb1|Hb2].
        - apply In_nth with (d := ([], [])) in Hb1. destruct Hb1 as (k & Hk & Ek). exists k.
          rewrite EA. rewrite app_length. simpl. split; [lia|]. split; [lia|].
          rewrite <- app_assoc, app_nth1 by lia. auto.
        - apply In_nth with (d := ([], [])) in Hb2. destruct Hb2 as (k & Hk & Ek). exists (length P1 + S k).
          rewrite EA. rewrite app_length. simpl. split; [lia|]. split; [lia|].
          rewrite <- app_assoc, app_nth2 by lia. replace (length P1 + S k - length P1) with (S k) by lia.
          simpl. rewrite app_nth1 by lia. auto. }
      destruct Hp as (p & Hp & Hne & Eb). exists p. rewrite Eb. split; auto. split; [now apply Hflag|]. split; auto. }
    intros p u v Hp Hf Hu Hv. apply Hflag in Hf. destruct (HothB p Hp Hf). now apply fill_conn.
  - destruct HF as [HP F].
    assert (HothB : forall p, p < length A ->
       In (nth p (A ++ D) ([], [])) B /\ full (nth p (A ++ D) ([], []))).
    { intros p Hp. rewrite app_nth1 by lia. assert (H := nth_In A ([], []) Hp). split.
      - now apply (Permutation_in _ HP).
      - rewrite Forall_forall in F. auto. }
    split. { rewrite <- B_rows. apply perm_concat, Permutation_map. auto. }
    split. { rewrite <- B_cols. apply perm_concat, Permutation_map. auto. }
    split. { intros p Hp. simpl. split; auto. intros _. destruct (HothB p Hp). now apply full_significant. }
    split. { simpl. intros; discriminate. }
    split.
    { intros i j Hi Hj Hs.
      assert (Hin : In i (concat (map fst B))).
      { apply (Permutation_in _ (Permutation_sym B_rows)). apply in_seq. lia. }
      apply in_concat in Hin. destruct Hin as (l & Hl' & Hin). apply in_map_iff in Hl'.
      destruct Hl' as (b & <- & Hb). assert (Hib : inside b (Row i)) by exact Hin.
      assert (Hjb : inside b (Col j)).
      { apply (fill_conn b (Row i)); auto. apply rst_step. constructor; auto. }
      apply (Permutation_in _ (Permutation_sym HP)) in Hb. apply In_nth with (d := ([], [])) in Hb.
      destruct Hb as (p & Hp & Eb). exists p. split; auto. split; auto.
      rewrite app_nth1 by lia. rewrite Eb. auto. }
    intros p u v Hp _ Hu Hv. destruct (HothB p Hp). now apply fill_conn.
Qed.
End Main.
