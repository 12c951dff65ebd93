From Coq Require Import ZArith QArith Qcanon Qround List Bool Arith Lia Permutation Sorted.
From Verif Require Import Base ListUtil QcLra ParticleModel ParticleSpec ParticleProofs.
Import ListNotations.

Definition mem (S : list nat) (i : nat) : bool := existsb (Nat.eqb i) S.
Lemma mem_In : forall S i, mem S i = true <-> In i S.
Proof.
  intros. unfold mem. rewrite existsb_exists. split.
  - intros (x & Hx & E). apply Nat.eqb_eq in E. now subst.
  - intros H. exists i. split; auto. apply Nat.eqb_refl.
Qed.
Lemma mem_not : forall S i, mem S i = false <-> ~ In i S.
Proof. intros. rewrite <- mem_In. destruct (mem S i); split; congruence || tauto. Qed.

Definition free_slots (S : list nat) (a m : nat) : list nat := filter (fun j => negb (mem S j)) (seq a m).

Lemma free_in : forall S a m j, In j (free_slots S a m) <-> (a <= j < a + m)%nat /\ ~ In j S.
Proof. intros. unfold free_slots. rewrite filter_In, in_seq, negb_true_iff, mem_not. tauto. Qed.

Lemma free_add : forall S a m k, free_slots S a (m + k) = free_slots S a m ++ free_slots S (a + m) k.
Proof. intros. unfold free_slots. now rewrite seq_app, filter_app. Qed.

Lemma skip_ok : forall S m nx j, (nx <= j < nx + m)%nat -> ~ In j S ->
  exists j0, skip_sampled nx (map (mem S) (seq nx m)) = Val j0 /\ (nx <= j0 <= j)%nat /\ ~ In j0 S /\
  free_slots S nx (j0 - nx) = [].
Proof.
  intros S. induction m as [|m IH]; intros nx j Hj Hn; [lia|]. cbn [seq map skip_sampled].
  destruct (mem S nx) eqn:E.
  - assert (nx <> j). { intros ->. apply Hn. now apply mem_In. }
    destruct (IH (Datatypes.S nx) j) as (j0 & H1 & H2 & H3 & H4); [lia|auto|].
    exists j0. split; [auto|]. split; [lia|]. split; [auto|].
    replace (j0 - nx)%nat with (Datatypes.S (j0 - Datatypes.S nx))%nat by lia. unfold free_slots in *. cbn [seq filter].
    rewrite E. cbn [negb]. auto.
  - exists nx. split; [auto|]. split; [lia|]. split; [now apply mem_not|]. now rewrite Nat.sub_diag.
Qed.

Lemma flags_skip : forall S N nx, skipn nx (flags_of N S) = map (mem S) (seq nx (N - nx)).
Proof.
  intros. unfold flags_of. rewrite skipn_map. f_equal.
  destruct (le_lt_dec nx N) as [H|H].
  - replace N with (nx + (N - nx))%nat at 1 by lia. rewrite seq_app, skipn_app, seq_length, Nat.sub_diag.
    rewrite skipn_all2 by (rewrite seq_length; lia). reflexivity.
  - replace (N - nx)%nat with 0%nat by lia. simpl. apply skipn_all2. rewrite seq_length. lia.
Qed.

Section Copy.
Context {P D : Type}.
Notation part := (particle P D).

Definition mark (p : part) : part := setParentId p (pid p).
Lemma mark_mark : forall p, mark (mark p) = mark p.
Proof. reflexivity. Qed.
Lemma copy_some : forall p : part, pdata p <> None -> copy p = Val p.
Proof. intros [a b c d e [f|]] H; [reflexivity|]. exfalso. now apply H. Qed.

Variable l0 : list part.
Variable S : list nat.
Let N := length l0.
Let n := length S.
Hypothesis Hdata : all_data l0.
Hypothesis HnN : (n <= N)%nat.
Hypothesis HS : forall i, In i S -> (i < N)%nat.
Hypothesis Hsort : StronglySorted le S.

Lemma filter_both : forall m, Permutation (seq 0 m) (filter (mem S) (seq 0 m) ++ free_slots S 0 m).
Proof.
  intros m. unfold free_slots. induction (seq 0 m) as [|x r IH]; simpl; [auto|].
  destruct (mem S x); simpl; [now constructor|]. apply Permutation_cons_app. auto.
Qed.

Definition goal_of (r : outcome (list part)) : Prop :=
  exists cur src, r = Val cur /\ length cur = N /\ length src = n /\ Permutation src S /\
  (forall j, (j < n)%nat -> In j S -> nth_error src j = Some j) /\
  (forall j, (j < n)%nat -> exists i, nth_error src j = Some i /\ nth_error cur j = option_map mark (nth_error l0 i)).

Lemma copy_loop_ok : forall B A prev nx cur f Dl,
  S = A ++ B ->
  (match prev with None => A = [] | Some j => In j A /\ forall x, In x A -> (x <= j)%nat end) ->
  length cur = N ->
  (forall j, In j A -> (j < n)%nat -> nth_error cur j = option_map mark (nth_error l0 j)) ->
  (forall j, In j S -> ~ (In j A /\ (j < n)%nat) -> nth_error cur j = nth_error l0 j) ->
  (forall j, ~ In j S -> (j < nx)%nat -> nth_error cur j = option_map mark (nth_error l0 (f j))) ->
  NoDup Dl -> (forall x, In x Dl <-> In x A /\ (x < n)%nat) ->
  Permutation A (Dl ++ map f (free_slots S 0 nx)) -> (nx <= n)%nat ->
  goal_of (copy_loop n (flags_of N S) B prev nx cur).
Proof.
  induction B as [|idx B IH]; intros A prev nx cur f Dl HA Hprev Hlen Hmk Hor Hcp Hnd HD Hperm Hnx.
  - rewrite app_nil_r in HA. subst A. cbn [copy_loop].
    assert (HDf : Permutation Dl (filter (mem S) (seq 0 n))).
    { apply NoDup_Permutation; auto; [apply NoDup_filter, seq_NoDup|]. intros x. rewrite HD, filter_In, in_seq, mem_In. split; [intros [? ?]; split; auto; lia|intros [? ?]; split; auto; lia]. }
    assert (Hc := Permutation_length (filter_both n)). rewrite seq_length, app_length in Hc.
    assert (Hc2 := Permutation_length Hperm). rewrite app_length, map_length in Hc2. fold n in Hc2.
    rewrite (Permutation_length HDf) in Hc2.
    assert (Hall : free_slots S 0 n = free_slots S 0 nx).
    { replace n with (nx + (n - nx))%nat by lia. rewrite free_add.
      assert (E : free_slots S (0 + nx) (n - nx) = []).
      { apply length_zero_iff_nil.
        assert (E := free_add S 0 nx (n - nx)). replace (nx + (n - nx))%nat with n in E by lia.
        apply (f_equal (@length nat)) in E. rewrite app_length in E. lia. }
      rewrite E. apply app_nil_r. }
    exists cur, (map (fun j => if mem S j then j else f j) (seq 0 n)).
    split; [reflexivity|]. split; [auto|]. split; [now rewrite map_length, seq_length|]. split; [|split].
    + rewrite Hperm. rewrite (Permutation_map _ (filter_both n)). rewrite map_app. apply Permutation_app.
      * rewrite HDf. erewrite map_ext_in; [rewrite map_id; reflexivity|].
        intros x Hx. apply filter_In in Hx as [_ Hx]. simpl. now rewrite Hx.
      * rewrite Hall. erewrite map_ext_in; [reflexivity|]. intros x Hx. apply free_in in Hx as [_ Hx].
        apply mem_not in Hx. simpl. now rewrite Hx.
    + intros j Hj Hin. erewrite map_nth_error; [|rewrite nth_error_nth' with (d := 0%nat); [rewrite seq_nth by auto; reflexivity|now rewrite seq_length]].
      simpl. apply mem_In in Hin. now rewrite Hin.
    + intros j Hj. eexists. split.
      { erewrite map_nth_error; [reflexivity|]. rewrite nth_error_nth' with (d := 0%nat); [rewrite seq_nth by auto; reflexivity|now rewrite seq_length]. }
      cbn [Nat.add]. destruct (mem S j) eqn:E.
      * apply mem_In in E. now apply Hmk.
      * apply mem_not in E. apply Hcp; auto.
        assert (Hin : In j (free_slots S 0 n)) by (apply free_in; split; [lia|auto]).
        rewrite Hall in Hin. apply free_in in Hin as [Hin _]. lia.
  - assert (HidxS : In idx S) by (rewrite HA; apply in_or_app; right; now left).
    assert (HidxN := HS _ HidxS).
    assert (Hle : forall x, In x A -> (x <= idx)%nat).
    { rewrite HA in Hsort. clear -Hsort. induction A as [|a A IHA]; intros x []; subst.
      - inversion Hsort as [|? ? Hs Hf]; subst. rewrite Forall_forall in Hf. apply Hf. apply in_or_app. right. now left.
      - inversion Hsort; subst. now apply IHA. }
    set (first := match prev with None => true | Some j => negb (Nat.eqb idx j) end).
    assert (Hfirst : first = true <-> ~ In idx A).
    { unfold first. destruct prev as [j|].
      - destruct Hprev as [Hj1 Hj2]. destruct (Nat.eqb_spec idx j) as [->|Hn]; simpl; [split; [discriminate|tauto]|].
        split; [|auto]. intros _ Hc. apply Hj2 in Hc. apply Hle in Hj1. lia.
      - subst A. simpl. tauto. }
    destruct (nth_error l0 idx) as [p0|] eqn:E0; [|apply nth_error_None in E0; fold N in E0; lia].
    assert (Hp : exists p, nth_error cur idx = Some p /\ mark p = mark p0 /\ pdata p = pdata p0).
    { destruct (in_dec Nat.eq_dec idx A) as [Hi|Hi]; [destruct (lt_dec idx n) as [Hl|Hl]|].
      - exists (mark p0). rewrite (Hmk idx Hi Hl), E0. auto.
      - exists p0. rewrite (Hor idx HidxS), E0 by tauto. auto.
      - exists p0. rewrite (Hor idx HidxS), E0 by tauto. auto. }
    destruct Hp as (p & Ep & Hpm & Hpd). cbn [copy_loop]. fold first. rewrite Ep. cbn [of_option obind].
    assert (HA' : S = (A ++ [idx]) ++ B) by (rewrite <- app_assoc; exact HA).
    assert (Hprev' : In idx (A ++ [idx]) /\ (forall x, In x (A ++ [idx]) -> (x <= idx)%nat)).
    { split; [apply in_or_app; right; now left|]. intros x Hx. apply in_app_or in Hx as [Hx|[<-|[]]]; auto. }
    destruct (Nat.ltb idx n && first) eqn:Ec.
    + apply andb_true_iff in Ec as [Ec1 Ec2]. apply Nat.ltb_lt in Ec1. apply Hfirst in Ec2.
      fold (mark p). rewrite Hpm.
      apply (IH (A ++ [idx]) (Some idx) nx _ f (Dl ++ [idx])); auto.
      * now rewrite upd_length.
      * intros j Hj Hjn. rewrite nth_error_upd. destruct (Nat.eq_dec idx j) as [<-|Hne].
        -- rewrite E0. destruct (lt_dec idx (length cur)); [auto|lia].
        -- apply in_app_or in Hj as [Hj|[Hj|[]]]; [auto|congruence].
      * intros j Hj Hno. rewrite nth_error_upd_neq.
        -- apply Hor; auto. intros [Hc1 Hc2]. apply Hno. split; auto. apply in_or_app. now left.
        -- intros <-. apply Hno. split; auto. apply in_or_app. right. now left.
      * intros j Hj Hjn. rewrite nth_error_upd_neq; auto. intros <-. auto.
      * apply (Permutation_NoDup (Permutation_cons_append Dl idx)). constructor; auto. intros Hc. apply HD in Hc. tauto.
      * intros x. rewrite !in_app_iff, HD. simpl. split; [intros [?|[<-|[]]]|intros [[?|[<-|[]]] ?]]; tauto || auto.
      * rewrite <- (Permutation_cons_append A idx). rewrite <- (Permutation_cons_append Dl idx). simpl. now constructor.
    + assert (Hnew : In idx A \/ (n <= idx)%nat).
      { apply andb_false_iff in Ec as [Ec|Ec]; [apply Nat.ltb_ge in Ec; auto|].
        left. destruct (in_dec Nat.eq_dec idx A); auto. apply Hfirst in n0. congruence. }
      assert (Hfree : exists j, (nx <= j < n)%nat /\ ~ In j S).
      { assert (Hc := Permutation_length (filter_both n)). rewrite seq_length, app_length in Hc.
        assert (Hc2 := Permutation_length Hperm). rewrite app_length, map_length in Hc2.
        assert (HlS : n = (length A + 1 + length B)%nat). { unfold n. rewrite HA, app_length. simpl. lia. }
        assert (HDs : (length (filter (mem S) (seq 0 n)) <= length (Dl ++ B))%nat).
        { apply NoDup_incl_length; [apply NoDup_filter, seq_NoDup|]. intros x Hx.
          apply filter_In in Hx as [Hx1 Hx2]. apply in_seq in Hx1. apply mem_In in Hx2. rewrite HA in Hx2.
          apply in_or_app. apply in_app_or in Hx2 as [Hx2|[<-|Hx2]]; auto.
          - left. apply HD. split; auto. lia.
          - left. apply HD. destruct Hnew; [split; auto; lia|lia]. }
        rewrite app_length in HDs.
        assert (E := free_add S 0 nx (n - nx)). replace (nx + (n - nx))%nat with n in E by lia.
        apply (f_equal (@length nat)) in E. rewrite app_length in E.
        destruct (free_slots S (0 + nx) (n - nx)) as [|j r] eqn:Ef; [simpl in E; lia|].
        assert (Hj : In j (free_slots S (0 + nx) (n - nx))) by (rewrite Ef; now left).
        apply free_in in Hj as [Hj1 Hj2]. exists j. split; [lia|auto]. }
      destruct Hfree as (j & Hj1 & Hj2).
      destruct (Nat.ltb_spec nx (length cur)); [|lia]. rewrite flags_skip.
      destruct (skip_ok S (N - nx) nx j) as (j0 & -> & Hj3 & Hj4 & Hj5); [lia|auto|]. cbn [obind].
      rewrite copy_some; [|rewrite Hpd; apply Hdata; now apply nth_error_In in E0]. cbn [obind].
      destruct (Nat.ltb_spec j0 (length cur)); [|lia]. fold (mark p). rewrite Hpm.
      assert (Hjid : j0 <> idx) by (intros ->; auto).
      assert (Hfs : free_slots S 0 (Datatypes.S j0) = free_slots S 0 nx ++ [j0]).
      { replace (Datatypes.S j0) with (nx + ((j0 - nx) + 1))%nat by lia. rewrite free_add, free_add. rewrite Nat.add_0_l, Hj5.
        replace (nx + (j0 - nx))%nat with j0 by lia. cbn [app]. f_equal. unfold free_slots. simpl.
        apply mem_not in Hj4. now rewrite Hj4. }
      apply (IH (A ++ [idx]) (Some idx) (Datatypes.S j0) _ (fun i => if Nat.eq_dec i j0 then idx else f i) Dl); auto.
      * now rewrite upd_length.
      * intros i Hi Hin. rewrite nth_error_upd_neq.
        -- apply in_app_or in Hi as [Hi|[<-|[]]]; auto. destruct Hnew; [auto|lia].
        -- intros <-. apply Hj4. rewrite HA'. apply in_or_app. now left.
      * intros i Hi Hno. rewrite nth_error_upd_neq by (intros <-; auto).
        apply Hor; auto. intros [Hc1 Hc2]. apply Hno. split; auto. apply in_or_app. now left.
      * intros i Hi Hin. rewrite nth_error_upd. destruct (Nat.eq_dec j0 i) as [<-|Hne].
        -- destruct (lt_dec j0 (length cur)); [|lia]. destruct (Nat.eq_dec j0 j0); [|congruence]. now rewrite E0.
        -- destruct (Nat.eq_dec i j0); [congruence|]. apply Hcp; auto.
           destruct (le_lt_dec nx i); auto. exfalso.
           assert (Hin' : In i (free_slots S nx (j0 - nx))) by (apply free_in; split; [lia|auto]).
           rewrite Hj5 in Hin'. destruct Hin'.
      * intros x. rewrite HD, in_app_iff. simpl. split; [tauto|]. intros [[?|[<-|[]]] ?]; auto. destruct Hnew; [auto|lia].
      * rewrite Hfs, map_app. simpl. destruct (Nat.eq_dec j0 j0); [|congruence].
        rewrite app_assoc. apply Permutation_app_tail.
        erewrite map_ext_in; [exact Hperm|]. intros i Hi. apply free_in in Hi as [Hi _].
        simpl. destruct (Nat.eq_dec i j0); [lia|auto].
      * lia.
Qed.

Lemma copy_all_ok : goal_of (copy_loop n (flags_of N S) S None 0 l0).
Proof.
  apply (copy_loop_ok S [] None 0 l0 (fun x => x) []); auto; simpl; try tauto || lia.
  constructor.
Qed.
End Copy.
