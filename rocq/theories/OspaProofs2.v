(** OSPA and COLA: results of calcError and getOptAssignment. *)
From Coq Require Import ZArith List Bool Arith QArith Qcanon Lia Permutation.
From Verif Require Import Base ListUtil QcLra HungarianModel AssignSpec AssignLemmas HungarianProofs3 OspaModel OspaSpec OspaProofs.
Import ListNotations.
Local Open Scope Z_scope.

Lemma in_combine_seq : forall (a : list nat) s i j, In (i, j) (combine (seq s (length a)) a) <-> (s <= i)%nat /\ nth_error a (i - s) = Some j.
Proof.
  induction a as [|x a IH]; intros s i j; simpl.
  - split; [tauto|]. intros [_ H]. destruct (i - s)%nat; discriminate.
  - rewrite IH. split.
    + intros [H|[H1 H2]].
      * injection H as <- <-. rewrite Nat.sub_diag. auto.
      * split; [lia|]. replace (i - s)%nat with (S (i - S s)) by lia. exact H2.
    + intros [H1 H2]. destruct (Nat.eq_dec i s) as [->|Hn].
      * rewrite Nat.sub_diag in H2. simpl in H2. injection H2 as ->. auto.
      * right. split; [lia|]. replace (i - s)%nat with (S (i - S s)) in H2 by lia. exact H2.
Qed.

Lemma filter_all : forall {B} (g : B -> bool) l, (forall x, g x = true) -> filter g l = l.
Proof. intros B g l H. induction l as [|x l IH]; [reflexivity|]. simpl. now rewrite H, IH. Qed.

Lemma calc_loop : forall o p wd wc L e, (forall i j, In (i, j) L -> nth_error (osoln o) i = Some j) ->
  fold_left (fun r i => let* e := r in err_step o p wd wc e i) (map fst L) (Val e) =
  Val (ERR (esum e + total_of (map (fun ij => oC o (fst ij) (snd ij) ^ Z.of_nat p) L))
           (edist e + (if wd then total_of (map (fun ij => oC o (fst ij) (snd ij)) (filter (fun ij => negb ((oC o (fst ij) (snd ij) =? oc o) && wc)) L)) else 0))
           (ecard e + (if wc then total_of (map (fun ij => oC o (fst ij) (snd ij)) (filter (fun ij => oC o (fst ij) (snd ij) =? oc o) L)) else 0))).
Proof.
  intros o p wd wc. induction L as [|[i j] L IH]; intros e H.
  - destruct e; simpl. destruct wd, wc; f_equal; f_equal; lia.
  - cbn [map fold_left fst snd obind]. unfold err_step at 2. rewrite (H i j) by now left.
    assert (H' : forall a b, In (a, b) L -> nth_error (osoln o) a = Some b) by (intros; apply H; now right).
    cbn [filter fst snd].
    destruct (oC o i j =? oc o) eqn:Ev; destruct wc; cbn [andb negb]; [|destruct wd|destruct wd|destruct wd];
    rewrite (IH _ H'); cbn [esum edist ecard map total_of fold_right fst snd]; unfold total_of; f_equal; f_equal; try lia; destruct wd; lia.
Qed.

Section Main.
Context {A : Type}.
Variable d : A -> A -> Z.
Variable c : Z.
Variables X Y : list A.
Notation n1 := (length X).
Notation n2 := (length Y).
Notation n := (Nat.max n1 n2).

Lemma construct_ok : exists C soln, construct d c X Y = Val (OSPA c C n1 n2 n soln) /\
  (forall i j, C i j = entry d c X Y i j) /\ optimal false n (entry d c X Y) soln.
Proof.
  destruct (hungarian_optimal (entry d c X Y) n false) as (C & soln & E & Ho).
  destruct (hungarian_restores _ _ _ _ _ E) as [_ HC]. exists C, soln. split; [|auto]. unfold construct. rewrite E. reflexivity.
Qed.

Lemma nonempty_n : X ++ Y <> [] -> Nat.eqb n 0 = false.
Proof. intros H. apply Nat.eqb_neq. intros E. apply H. destruct X as [|x l]; [|cbn [length] in E; lia]. destruct Y as [|y r]; [auto|cbn [length] in E; lia]. Qed.

Theorem ospa_main : exists o M R,
  construct d c X Y = Val o /\
  matching n1 n2 M /\ (forall ij, In ij M -> pair_cost d c X Y ij < c) /\
  (forall M', matching n1 n2 M' -> match_cost d 1 c X Y M <= match_cost d 1 c X Y M') /\
  (X ++ Y <> [] -> forall p wd wc, calcError o p wd wc =
     Val ((QcZ (match_cost d p c X Y M) / QcN n)%Qc,
          (if wd then total_of (map (pair_cost d c X Y) M) + (if wc then 0 else c * (Z.of_nat n - Z.of_nat (length M))) else 0),
          (if wc then c * (Z.of_nat n - Z.of_nat (length M)) else 0))) /\
  (X ++ Y = [] -> forall p wd wc, calcError o p wd wc = UB DivByZero) /\
  matching n1 n2 R /\ (forall p, match_cost d p c X Y R = match_cost d p c X Y M) /\
  (forall i, exists r, getOptAssignment o i = Val r /\
     forall j v, r = Some (j, v) <-> In (i, j) R /\ v = pair_cost d c X Y (i, j)) /\
  oc o = c /\ on o = n.
Proof.
  destruct construct_ok as (C & soln & E & HC & Ha & Hopt). set (o := OSPA c C n1 n2 n soln) in *.
  assert (HL := assignment_length _ _ Ha). set (L := combine (seq 0 n) soln).
  assert (Hin : forall i j, In (i, j) L -> nth_error soln i = Some j).
  { intros i j H. unfold L in H. rewrite <- HL in H. apply in_combine_seq in H. destruct H as [_ H]. now rewrite Nat.sub_0_r in H. }
  assert (Hb : forall i j, In (i, j) L -> (i < n)%nat /\ (j < n)%nat) by (apply assign_matching; exact Ha).
  assert (HoC : forall i j, In (i, j) L -> oC o i j = pair_cost d c X Y (i, j)).
  { intros i j H. destruct (Hb i j H). unfold o. cbn [oC]. rewrite HC. now apply entry_pair. }
  set (g2 := fun ij => negb (pair_cost d c X Y ij =? c)). set (g1 := fun ij : nat * nat => ((fst ij <? n1) && (snd ij <? n2))%nat).
  assert (A2 : forall p, matching n1 n2 (filter g2 L) /\ match_cost d p c X Y (filter g2 L) = pcost d c X Y p L).
  { intros p. apply (assign_cost d c X Y p soln g2 Ha).
    - intros i j H. unfold g2 in H. apply negb_false_iff in H. lia.
    - intros i j _ H. unfold g2 in H. apply negb_true_iff in H. destruct ((i <? n1) && (j <? n2))%nat eqn:Eg.
      + apply andb_true_iff in Eg. rewrite !Nat.ltb_lt in Eg. exact Eg.
      + rewrite (outside_cut d c X Y i j Eg) in H. lia. }
  assert (A1 : forall p, matching n1 n2 (filter g1 L) /\ match_cost d p c X Y (filter g1 L) = pcost d c X Y p L).
  { intros p. apply (assign_cost d c X Y p soln g1 Ha).
    - intros i j H. now apply outside_cut.
    - intros i j _ H. unfold g1 in H. cbn [fst snd] in H. apply andb_true_iff in H. now rewrite !Nat.ltb_lt in H. }
  assert (HK : (length L = n)%nat) by (unfold L; rewrite combine_length, seq_length, HL; lia).
  exists o, (filter g2 L), (filter g1 L). split; [exact E|]. split; [apply (A2 0%nat)|]. split; [|split; [|split; [|split; [|split; [apply (A1 0%nat)|split; [|split; [|split; reflexivity]]]]]]].
  - intros ij H. apply filter_In in H. destruct H as [_ H]. unfold g2 in H. apply negb_true_iff in H. assert (B := pair_cost_le d c X Y ij). lia.
  - intros M' HM'. rewrite (proj2 (A2 1%nat)). destruct (matching_assign d c X Y M' HM') as (b & Hb' & Hle).
    specialize (Hle 1%nat (or_introl eq_refl)). specialize (Hopt b Hb'). unfold better in Hopt.
    rewrite (score_pcost d c X Y _ Ha), (score_pcost d c X Y _ Hb') in Hopt. fold L in Hopt. lia.
  - intros Hne p wd wc. unfold calcError. change (on o) with n. replace (seq 0 n) with (map fst L).
    2: { unfold L. rewrite <- HL. apply combine_fst. }
    rewrite calc_loop by exact Hin. cbn [obind esum edist ecard]. rewrite (nonempty_n Hne).
    assert (E1 : total_of (map (fun ij => oC o (fst ij) (snd ij) ^ Z.of_nat p) L) = match_cost d p c X Y (filter g2 L)).
    { rewrite (proj2 (A2 p)). apply tot_ext. intros [i j] H. cbn [fst snd]. now rewrite HoC. }
    assert (E2 : filter (fun ij => oC o (fst ij) (snd ij) =? oc o) L = filter (fun ij => negb (g2 ij)) L).
    { apply filter_ext_in. intros [i j] H. cbn [fst snd]. rewrite HoC by auto. unfold g2. now rewrite negb_involutive. }
    assert (E3 : total_of (map (fun ij => oC o (fst ij) (snd ij)) (filter (fun ij => negb (g2 ij)) L)) = c * (Z.of_nat n - Z.of_nat (length (filter g2 L)))).
    { rewrite (tot_const _ c).
      - assert (F := filter_split_len g2 L). f_equal. lia.
      - intros [i j] H. apply filter_In in H. destruct H as [H1 H2]. cbn [fst snd]. rewrite HoC by auto.
        unfold g2 in H2. rewrite negb_involutive in H2. lia. }
    assert (E4 : total_of (map (fun ij => oC o (fst ij) (snd ij)) (filter (fun ij => negb ((oC o (fst ij) (snd ij) =? oc o) && wc)) L)) =
      total_of (map (pair_cost d c X Y) (filter g2 L)) + (if wc then 0 else c * (Z.of_nat n - Z.of_nat (length (filter g2 L))))).
    { destruct wc.
      - rewrite Z.add_0_r. replace (filter (fun ij => negb ((oC o (fst ij) (snd ij) =? oc o) && true)) L) with (filter g2 L).
        + apply tot_ext. intros [i j] H. apply filter_In in H. cbn [fst snd]. apply HoC. tauto.
        + apply filter_ext_in. intros [i j] H. cbn [fst snd]. now rewrite andb_true_r, HoC.
      - rewrite <- E3. rewrite <- (tot_ext (fun ij => oC o (fst ij) (snd ij)) (pair_cost d c X Y)).
        + rewrite <- tot_split. f_equal. f_equal. apply filter_all. intros x. now rewrite andb_false_r.
        + intros [i j] H. apply filter_In in H. cbn [fst snd]. apply HoC. tauto. }
    rewrite E1, E4, E2, E3, !Z.add_0_l. reflexivity.
  - intros He p wd wc. apply app_eq_nil in He. destruct He as [-> ->]. unfold calcError, o. reflexivity.
  - intros p. now rewrite (proj2 (A1 p)), (proj2 (A2 p)).
  - intros i. unfold getOptAssignment. cbn [on1 o on2 osoln]. destruct (Nat.leb_spec n1 i) as [H|H].
    + exists None. split; [reflexivity|]. intros j v. split; [discriminate|]. intros [Hc _]. apply filter_In in Hc. destruct Hc as [_ Hc].
      unfold g1 in Hc. cbn [fst snd] in Hc. apply andb_true_iff in Hc. destruct Hc as [Hc _]. apply Nat.ltb_lt in Hc. lia.
    + destruct (nth_error soln i) as [j|] eqn:Ej; [|apply nth_error_None in Ej; lia].
      assert (HiL : In (i, j) L). { unfold L. rewrite <- HL. apply in_combine_seq. rewrite Nat.sub_0_r. split; [lia|auto]. }
      destruct (Nat.leb_spec n2 j) as [H2|H2].
      * exists None. split; [reflexivity|]. intros j' v. split; [discriminate|]. intros [Hc _]. apply filter_In in Hc. destruct Hc as [Hc Hg].
        apply Hin in Hc. rewrite Ej in Hc. injection Hc as <-. unfold g1 in Hg. cbn [fst snd] in Hg. apply andb_true_iff in Hg.
        destruct Hg as [_ Hg]. apply Nat.ltb_lt in Hg. lia.
      * exists (Some (j, C i j)). split; [reflexivity|]. intros j' v. split.
        -- intros Hs. injection Hs as <- <-. split.
           ++ apply filter_In. split; [auto|]. unfold g1. cbn [fst snd]. apply andb_true_iff. rewrite !Nat.ltb_lt. auto.
           ++ apply (HoC i j HiL).
        -- intros [Hc ->]. apply filter_In in Hc. destruct Hc as [Hc _]. apply Hin in Hc. rewrite Ej in Hc. injection Hc as <-.
           f_equal. f_equal. apply (HoC i j HiL).
Qed.
End Main.
