(** Proofs about class Murty: the set of assignments a node stands for. *)
From Coq Require Import ZArith List Bool Arith Lia Permutation.
From Verif Require Import Base ListUtil HungarianModel AssignSpec AssignLemmas HungarianProofs3
  MurtyModel MurtySpec MurtyProofs.
Import ListNotations.
Local Open Scope Z_scope.

Section Cells.
Variables (n : nat) (C : nat -> nat -> Z) (big : Z) (nC : nat).

(** Assignments with the given first rows and none of the columns X in row p. *)
Definition cellX (p : nat) (fixed : list nat) (X : nat -> bool) (b : list nat) : Prop :=
  assignment n b /\ firstn p b = fixed /\ (forall c, nth_error b p = Some c -> X c = false).

Definition cell (u : node * (nat -> bool)) (b : list nat) : Prop :=
  cellX (nid (fst u)) (firstn (nid (fst u)) (na (fst u))) (snd u) b.

Definition childX (par : node) (X : nat -> bool) (p : nat) : nat -> bool := fun c =>
  xb nC (free_cols n (firstn p (na par))) (nth p (na par) 0%nat) c || (Nat.eqb p (nid par) && X c).

Inductive good : node -> (nat -> bool) -> Prop :=
| good_root : forall a X, (forall c, X c = false) -> assignment n a ->
    (forall b, assignment n b -> score C b <= score C a) ->
    good (ND 0 a (score C a) []) X
| good_child : forall par X p a X', good par X -> (nid par <= p)%nat -> (p < n)%nat ->
    (forall c, X' c = childX par X p c) ->
    cellX p (firstn p (na par)) X' a ->
    (forall b, cellX p (firstn p (na par)) X' b -> score C b <= score C a) ->
    good (ND p a (score C a) ((nid par, na par) :: nanc par)) X'.

Lemma good_cell : forall nd X, good nd X -> cell (nd, X) (na nd) /\ ns nd = score C (na nd) /\
  (forall b, cell (nd, X) b -> score C b <= score C (na nd)).
Proof.
  intros nd X H. destruct H as [a X HX Ha Hb|par X p a X' Hg H1 H2 H3 H4 H5].
  - split; [|split; [reflexivity|]].
    + split; [exact Ha|]. split; [reflexivity|]. intros c _. apply HX.
    + intros b (Hb' & _). apply Hb. exact Hb'.
  - assert (Hf : firstn p a = firstn p (na par)) by apply H4.
    split; [|split; [reflexivity|]].
    + split; [apply H4|]. split; [reflexivity|]. simpl. apply H4.
    + intros b Hc. apply H5. unfold cell in Hc. simpl in Hc. now rewrite Hf in Hc.
Qed.

Lemma good_assignment : forall nd X, good nd X -> assignment n (na nd).
Proof. intros nd X H. apply good_cell in H. apply H. Qed.

Lemma nth_free : forall a p c, assignment n a -> nth_error a p = Some c -> In c (free_cols n (firstn p a)).
Proof.
  intros a p c Ha Hc. apply free_in. split.
  - apply (assignment_bound n a); auto. eapply nth_error_In; eauto.
  - intros Hin. apply In_nth_error in Hin. destruct Hin as [i Hi].
    assert (Hlt : (i < p)%nat).
    { apply nth_error_lt in Hi. rewrite firstn_length in Hi. lia. }
    rewrite nth_error_firstn in Hi by auto.
    assert (Hnd := assignment_nodup n a Ha). rewrite NoDup_nth_error in Hnd.
    assert (i = p); [|lia]. apply Hnd; [now apply nth_error_lt in Hi|congruence].
Qed.

Lemma good_nth : forall nd X p, good nd X -> (p < n)%nat -> nth_error (na nd) p = Some (nth p (na nd) 0%nat).
Proof.
  intros nd X p H Hp. apply good_assignment in H. apply nth_error_nth'. now rewrite (assignment_length n).
Qed.

Lemma walk_cons : forall p cur id a x rest, walk p cur ((id, a) :: x :: rest) =
  (let* c := of_option OutOfBounds (nth_error a cur) in
   if Nat.leb p id then let* r := walk p id (x :: rest) in Val ((cur, c) :: r) else Val [(cur, c)]).
Proof. reflexivity. Qed.

Lemma walk_ok : forall par X, good par X -> forall p, (nid par <= p)%nat -> (p < n)%nat ->
  exists l, walk p p ((nid par, na par) :: nanc par) = Val l /\
  (forall rc, In rc l -> fst rc = p /\ In (snd rc) (free_cols n (firstn p (na par)))) /\
  (forall c, existsb (fun rc => xb nC (free_cols n (firstn p (na par))) (snd rc) c) l = childX par X p c).
Proof.
  intros par X H. induction H as [a X HX Ha Hb|par X p0 a X' Hg IH Hle Hp0 HX Hc Hbest]; intros p Hp Hpn.
  - cbn [nid na nanc]. simpl walk. rewrite (nth_error_nth' a 0%nat) by (now rewrite (assignment_length n a Ha)).
    cbn [of_option obind]. eexists. split; [reflexivity|]. split.
    + intros rc [<-|[]]. cbn [fst snd]. split; auto. apply nth_free; auto. apply nth_error_nth'.
      now rewrite (assignment_length n a Ha).
    + intros c. cbn [existsb snd]. unfold childX. cbn [na nid]. rewrite HX, andb_false_r. reflexivity.
  - cbn [nid na nanc] in *. assert (Ha : assignment n a) by apply Hc.
    assert (Hf : firstn p0 a = firstn p0 (na par)) by apply Hc.
    rewrite walk_cons. rewrite (nth_error_nth' a 0%nat) by (now rewrite (assignment_length n a Ha)).
    cbn [of_option obind].
    assert (Hin : In (nth p a 0%nat) (free_cols n (firstn p a))).
    { apply nth_free; auto. apply nth_error_nth'. now rewrite (assignment_length n a Ha). }
    destruct (Nat.leb_spec p p0) as [Hle0|Hgt].
    + assert (p = p0) by lia. subst p0. destruct (IH p Hle Hpn) as (l & El & Hl & Hx).
      rewrite El. cbn [obind]. eexists. split; [reflexivity|]. rewrite Hf. split.
      * intros rc [<-|Hrc]; [|now apply Hl]. cbn [fst snd]. split; auto. now rewrite <- Hf.
      * intros c. cbn [existsb snd]. unfold childX at 1. cbn [na nid]. rewrite Hf, Nat.eqb_refl. cbn [andb].
        rewrite HX, Hx. reflexivity.
    + eexists. split; [reflexivity|]. split.
      * intros rc [<-|[]]. cbn [fst snd]. auto.
      * intros c. cbn [existsb snd]. unfold childX. cbn [na nid].
        destruct (Nat.eqb_spec p p0); [lia|]. reflexivity.
Qed.

Hypothesis Hdom : dominating n C big.

Lemma score_lower : forall (D : nat -> nat -> Z) lo hi a i, (forall x y, (i <= x < i + length a)%nat -> In y a -> lo <= D x y <= hi) ->
  Z.of_nat (length a) * lo <= score_from D i a <= Z.of_nat (length a) * hi.
Proof.
  intros D lo hi a. induction a as [|y a IH]; intros i H; [simpl; lia|].
  cbn [score_from length]. assert (H1 := H i y ltac:(simpl; lia) ltac:(now left)).
  assert (H2 := IH (S i) ltac:(intros; apply H; [simpl; lia|now right])). nia.
Qed.

Lemma make_child_ok : forall M par X p, (forall x y, mC M x y = C x y) -> mn M = n -> mbig M = big -> mCols M = nC ->
  good par X -> (nid par <= p)%nat -> (p < n)%nat ->
  exists o, make_child M par p = Val o /\
  match o with
  | None => forall b, ~ cellX p (firstn p (na par)) (childX par X p) b
  | Some nd => good nd (childX par X p) /\ nid nd = p /\ firstn p (na nd) = firstn p (na par)
  end.
Proof.
  intros M par X p HC Hn Hbg Hcol Hg Hp Hpn. unfold make_child. rewrite Hn, Hbg, Hcol.
  set (fixed := firstn p (na par)). set (free := free_cols n fixed). set (m := (n - p)%nat).
  assert (Ha := good_assignment par X Hg).
  assert (Hal := assignment_length n _ Ha).
  assert (Hfl : length fixed = p) by (unfold fixed; rewrite firstn_length; lia).
  assert (Hfnd : NoDup fixed).
  { assert (H := assignment_nodup n _ Ha). rewrite <- (firstn_skipn p (na par)) in H.
    fold fixed in H. clear - H. induction fixed as [|x f IH]; constructor; inversion H; subst; auto.
    intros Hin. apply H2. apply in_or_app. now left. }
  assert (Hfb : forall c, In c fixed -> (c < n)%nat).
  { intros c Hc. apply (assignment_bound n (na par)); auto. rewrite <- (firstn_skipn p (na par)). apply in_or_app. now left. }
  assert (Hfree : length free = m) by (apply (split_free_length n p fixed); auto; lia).
  rewrite Hfree, Nat.eqb_refl. cbn [negb].
  destruct (walk_ok par X Hg p Hp Hpn) as (l & El & Hl & Hx). rewrite El. cbn [obind].
  fold fixed in Hl, Hx. fold free in Hl, Hx.
  set (Ct0 := (fun i j => if Nat.ltb i m && Nat.ltb j m then mC M (p + i)%nat (nth j free 0%nat) else 0) : mat).
  assert (Hfn : NoDup free) by apply free_nodup.
  destruct (forbid_all_ok p m nC free big Hfn Hfree l Ct0 Hl) as (Ct & E1 & HCt). rewrite E1. cbn [obind].
  set (X' := childX par X p) in *.
  assert (HCt' : forall x y, (x < m)%nat -> (y < m)%nat ->
     Ct x y = if Nat.eqb x 0 && X' (nth y free 0%nat) then - big else C (p + x)%nat (nth y free 0%nat)).
  { intros x y Hxm Hym. rewrite HCt, Hx. unfold Ct0.
    rewrite (proj2 (Nat.ltb_lt x m) Hxm), (proj2 (Nat.ltb_lt y m) Hym), HC. cbn [andb].
    now rewrite andb_true_r. }
  destruct Hdom as (lo & hi & Hrange & Hlohi & Hbig).
  assert (Hfin : forall y, (y < m)%nat -> (nth y free 0 < n)%nat).
  { intros y Hy. assert (H : In (nth y free 0%nat) free) by (apply nth_In; lia). now apply free_in in H. }
  assert (Hm0 : (0 < m)%nat) by (unfold m; lia).
  assert (Hlob : - big < lo) by nia.
  set (Cr := fun i j => C (p + i)%nat (nth j free 0%nat)).
  (* feasible solutions of the reduced problem *)
  assert (Hfeas : forall t j, assignment m t -> nth_error t 0 = Some j -> X' (nth j free 0%nat) = false ->
     score Ct t = score Cr t).
  { intros t j Ht Hj HXj. unfold score. apply score_from_ext. intros k y Hky.
    assert (Hk := nth_error_lt _ _ _ _ Hky). rewrite (assignment_length m t Ht) in Hk.
    assert (Hy : (y < m)%nat) by (apply (assignment_bound m t); auto; eapply nth_error_In; eauto).
    rewrite HCt' by (simpl; auto). unfold Cr. simpl. destruct (Nat.eqb_spec k 0) as [->|]; auto. simpl.
    rewrite Hky in Hj. injection Hj as ->. now rewrite HXj. }
  assert (Hinf : forall t j, assignment m t -> nth_error t 0 = Some j -> X' (nth j free 0%nat) = true ->
     score Ct t <= - big + Z.of_nat (m - 1) * hi).
  { intros t j Ht Hj HXj. destruct t as [|j' t]; [discriminate|]. simpl in Hj. injection Hj as ->.
    assert (Hjm : (j < m)%nat) by (apply (assignment_bound m (j :: t)); auto; now left).
    unfold score. cbn [score_from]. rewrite HCt' by auto. rewrite HXj. simpl (_ && _).
    assert (Htl : length t = (m - 1)%nat).
    { assert (H := assignment_length m _ Ht). simpl in H. lia. }
    assert (H : Z.of_nat (length t) * lo <= score_from Ct 1 t <= Z.of_nat (length t) * hi).
    { apply score_lower. intros x y Hxr Hy.
      assert (Hym : (y < m)%nat) by (apply (assignment_bound m (j :: t)); auto; now right).
      rewrite HCt' by lia. destruct x as [|x]; [lia|]. simpl (Nat.eqb (S x) 0 && _).
      apply Hrange; [unfold m in *; lia|auto]. }
    rewrite Htl in H. lia. }
  assert (Hlow : forall t, assignment m t -> Z.of_nat m * lo <= score Cr t).
  { intros t Ht. rewrite <- (assignment_length m t Ht) at 1. apply (score_lower Cr lo hi t 0).
    intros x y Hxr Hy. rewrite (assignment_length m t Ht) in Hxr.
    assert (Hym : (y < m)%nat) by (apply (assignment_bound m t); auto).
    unfold Cr. apply Hrange; [unfold m in *; lia|auto]. }
  assert (Hgap : - big + Z.of_nat (m - 1) * hi < Z.of_nat m * lo).
  { rewrite Nat2Z.inj_sub by lia. assert (Z.of_nat m <= Z.of_nat n) by (unfold m; lia). nia. }
  assert (Hcell : forall t j, assignment m t -> nth_error t 0 = Some j -> X' (nth j free 0%nat) = false ->
     cellX p fixed X' (fixed ++ map (fun j => nth j free 0%nat) t)).
  { intros t j Ht Hj HXj. split; [|split].
    - apply (lift_assignment n p fixed); auto.
    - apply (lift_prefix n p fixed); auto.
    - intros c Hc. assert (H := lift_nth n p fixed Hfl ltac:(lia) t j Hj). fold free in H. rewrite H in Hc. injection Hc as <-. exact HXj. }
  assert (Hinv : forall b, cellX p fixed X' b -> exists t j, assignment m t /\
     b = fixed ++ map (fun j => nth j free 0%nat) t /\ nth_error t 0 = Some j /\ X' (nth j free 0%nat) = false).
  { intros b (Hb1 & Hb2 & Hb3). destruct (lift_inv n p fixed Hfnd Hfb Hfl b Hb1 Hb2) as (t & Ht & Et).
    assert (Htl := assignment_length m t Ht). destruct t as [|j t]; [simpl in Htl; lia|].
    exists (j :: t), j. split; auto. split; auto. split; auto. apply Hb3. rewrite Et.
    apply (lift_nth n p fixed Hfl ltac:(lia) (j :: t) j). reflexivity. }
  destruct (existsb (fun j => negb (Ct 0%nat j =? - big)) (seq 0 m)) eqn:Epos.
  - apply existsb_exists in Epos. destruct Epos as (j0 & Hj0 & Ej0). apply in_seq in Hj0.
    rewrite HCt' in Ej0 by lia. simpl (Nat.eqb 0 0 && _) in Ej0.
    assert (HX0 : X' (nth j0 free 0%nat) = false).
    { destruct (X' (nth j0 free 0%nat)); auto. rewrite Z.eqb_refl in Ej0. discriminate. }
    (* an assignment of the reduced problem with j0 first *)
    assert (Ht0 : exists t0, assignment m t0 /\ nth_error t0 0 = Some j0).
    { exists (j0 :: free_cols m [j0]). split; [|reflexivity].
      apply (free_perm m [j0]); [constructor; [simpl; tauto|constructor]|].
      intros c [<-|[]]. lia. }
    destruct Ht0 as (t0 & Ht0 & Hn0).
    destruct (hungarian_ok Ct m true) as (Ct2 & t & Eh & _ & Ht & Hbest). rewrite Eh. cbn [obind snd].
    assert (Htl := assignment_length m t Ht).
    destruct (nth_error_ex _ t 0 ltac:(lia)) as [j Hj].
    assert (HXj : X' (nth j free 0%nat) = false).
    { destruct (X' (nth j free 0%nat)) eqn:Ex; auto. exfalso.
      assert (H1 := Hinf t j Ht Hj Ex). assert (H2 := Hbest t0 Ht0). unfold better in H2.
      rewrite (Hfeas t0 j0 Ht0 Hn0 HX0) in H2. assert (H3 := Hlow t0 Ht0). lia. }
    eexists. split; [reflexivity|]. cbn [nid na].
    set (a' := fixed ++ map (fun j => nth j free 0%nat) t).
    assert (Hsc : row_sum (mC M) p (map (fun j => nth j free 0%nat) t) + row_sum (mC M) 0 fixed = score C a').
    { rewrite !row_sum_score. unfold a', score. rewrite score_from_app, Hfl. simpl.
      rewrite (score_from_ext (mC M) C), (score_from_ext (mC M) C) by (intros; apply HC). lia. }
    rewrite Hsc. split; [|split; auto].
    + apply good_child with (X := X); auto.
      * apply (Hcell t j); auto.
      * intros b Hb. destruct (Hinv b Hb) as (t' & j' & Ht' & Eb & Hj' & HX'). rewrite Eb. unfold a'.
        assert (S1 := lift_score n p fixed Hfl C t). assert (S2 := lift_score n p fixed Hfl C t').
        fold free in S1, S2. fold Cr in S1, S2. rewrite S1, S2.
        assert (H := Hbest t' Ht'). unfold better in H.
        rewrite (Hfeas t j Ht Hj HXj), (Hfeas t' j' Ht' Hj' HX') in H.
        lia.
    + apply (lift_prefix n p fixed); auto.
  - eexists. split; [reflexivity|]. cbn beta. intros b Hb.
    destruct (Hinv b Hb) as (t & j & Ht & _ & Hj & HXj).
    assert (Hjm : (j < m)%nat) by (apply (assignment_bound m t); auto; eapply nth_error_In; eauto).
    rewrite <- not_true_iff_false in Epos. apply Epos. apply existsb_exists. exists j. split; [apply in_seq; lia|].
    rewrite HCt' by auto. simpl (Nat.eqb 0 0 && _). rewrite HXj.
    assert (H := Hrange (p + 0)%nat (nth j free 0%nat) ltac:(lia) (Hfin j Hjm)).
    destruct (Z.eqb_spec (C (p + 0)%nat (nth j free 0%nat)) (- big)); [lia|reflexivity].
Qed.

End Cells.
