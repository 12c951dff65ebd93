(** Proofs about the particle weighting of the PHD filter: selection of evaluation points. *)
From Coq Require Import ZArith List Bool Arith QArith Qcanon Lia Sorted Permutation.
From Verif Require Import Base ListUtil QcLra Loop PermanentSpec PermanentProofs PartitionModel PartitionSpec RfsModel RfsSpec
  RfsProofs RfsProofs2 RfsProofs4 RfsProofs5 PhdModel PhdSpec PhdProofs PhdProofs2 LmbModel LmbSpec MemberModel WeighModel WeighSpec.
Import ListNotations.
Local Open Scope Qc_scope.

Lemma fold_sum : forall {X} (f : X -> Qc) l a, fold_left (fun v g => v + f g) l a = a + qsum (map f l).
Proof.
  intros X f. induction l as [|x l IH]; intros a; cbn [fold_left map]; [rewrite qsum_nil; ring|].
  rewrite IH, qsum_cons. ring.
Qed.
Lemma fold_prod : forall {X} (f : X -> Qc) l a, fold_left (fun v g => v * f g) l a = a * qprod (map f l).
Proof.
  intros X f. induction l as [|x l IH]; intros a; cbn [fold_left map]; [rewrite qprod_nil; ring|].
  rewrite IH, qprod_cons. ring.
Qed.

Section Pick.
Variable T : Type.
Variable probDet : T -> Qc * bool.
Notation proj := (fun g : gauss T => (g_lm g, g_w g)).
Notation ok thr g := (eligible T probDet thr (proj g)).

Definition entry (s : list (gauss T)) (thr : Qc) (p : nat * Qc) : Prop :=
  exists g, nth_error s (fst p) = Some g /\ ok thr g /\ snd p = fst (probDet (g_lm g)).

Lemma snoc_sorted : forall l x, StronglySorted lt l -> (forall y, In y l -> (y < x)%nat) -> StronglySorted lt (l ++ [x]).
Proof.
  induction l as [|a l IH]; intros x H Hx; cbn [app]; [repeat constructor|].
  inversion H as [|? ? H1 H2]; subst. constructor.
  - apply IH; [exact H1|]. intros y Hy. apply Hx. right. exact Hy.
  - apply Forall_app. split; [exact H2|]. repeat constructor. apply Hx. left. reflexivity.
Qed.

Lemma pick_ok : forall (s : list (gauss T)) thr n, (1 <= n)%Z ->
  StronglySorted (fun a b => g_w b <= g_w a) s ->
  forall l pre i acc, s = pre ++ l -> length pre = i ->
  StronglySorted lt (map fst acc) -> (forall p, In p acc -> (fst p < i)%nat /\ entry s thr p) ->
  (Z.of_nat (length acc) < n)%Z ->
  (forall j g, (j < i)%nat -> nth_error s j = Some g -> ok thr g -> In j (map fst acc)) ->
  let ev := pick T probDet thr n i l acc in
  StronglySorted lt (map fst ev) /\ (forall p, In p ev -> entry s thr p) /\ (Z.of_nat (length ev) <= n)%Z /\
  (forall j g, nth_error s j = Some g -> ok thr g -> ~ In j (map fst ev) ->
     Z.of_nat (length ev) = n /\ forall p, In p ev -> (fst p < j)%nat).
Proof.
  intros s thr n Hn Hs. induction l as [|g l IH]; intros pre i acc Es Hi Ho He Hl Hc; cbn [pick].
  - split; [exact Ho|]. split; [intros p Hp; apply He; exact Hp|]. split; [lia|].
    intros j g Hj Hg Hni. exfalso. apply Hni. apply (Hc j g); [|exact Hj|exact Hg].
    assert (K : nth_error s j <> None) by congruence. apply nth_error_Some in K.
    rewrite Es, app_nil_r in *. lia.
  - assert (Ei : nth_error s i = Some g) by (rewrite Es, nth_error_app2 by lia; rewrite Hi, Nat.sub_diag; reflexivity).
    destruct (Qcltb (g_w g) thr) eqn:Et.
    + apply Qcltb_true in Et.
      split; [exact Ho|]. split; [intros p Hp; apply He; exact Hp|]. split; [lia|].
      intros j h Hj Hg Hni. exfalso. destruct (Nat.lt_ge_cases j i) as [Hji|Hji]; [apply Hni; eapply Hc; eauto|].
      destruct Hg as [Hg _]. cbn [snd] in Hg.
      destruct (Nat.eq_dec j i) as [->|Hne]; [rewrite Ei in Hj; injection Hj as <-; qclra|].
      assert (K : g_w h <= g_w g).
      { assert (Hl2 : In h l).
        { rewrite Es, nth_error_app2 in Hj by lia. destruct (j - length pre)%nat as [|k] eqn:Ek; [lia|].
          cbn in Hj. eapply nth_error_In. exact Hj. }
        rewrite Es in Hs. clear - Hs Hl2. induction pre as [|a pre IH]; cbn [app] in Hs.
        - inversion Hs as [|? ? _ HF]; subst. rewrite Forall_forall in HF. apply HF. exact Hl2.
        - inversion Hs; subst. auto. }
      qclra.
    + apply Qcltb_false in Et. cbv zeta.
      set (pd := fst (probDet (g_lm g))). set (acc' := if Qcltb 0 pd then acc ++ [(i, pd)] else acc).
      assert (Ho' : StronglySorted lt (map fst acc')).
      { unfold acc'. destruct (Qcltb 0 pd); [|exact Ho]. rewrite map_app. cbn [map fst]. apply snoc_sorted; [exact Ho|].
        intros y Hy. apply in_map_iff in Hy. destruct Hy as (p & <- & Hp). apply He. exact Hp. }
      assert (He' : forall p, In p acc' -> (fst p < S i)%nat /\ entry s thr p).
      { intros p Hp. unfold acc' in Hp. destruct (Qcltb 0 pd) eqn:Ep.
        - apply in_app_or in Hp. destruct Hp as [Hp|[<-|[]]]; [destruct (He p Hp); split; [lia|assumption]|].
          split; [cbn; lia|]. exists g. split; [exact Ei|]. split; [|reflexivity]. split; [exact Et|].
          apply Qcltb_true in Ep. exact Ep.
        - destruct (He p Hp); split; [lia|assumption]. }
      assert (Hl' : (Z.of_nat (length acc') <= n)%Z).
      { unfold acc'. destruct (Qcltb 0 pd); [rewrite app_length; cbn [length]|]; lia. }
      assert (Hc' : forall j h, (j < S i)%nat -> nth_error s j = Some h -> ok thr h -> In j (map fst acc')).
      { intros j h Hj Eh Hh. destruct (Nat.eq_dec j i) as [->|Hne].
        - rewrite Ei in Eh. injection Eh as <-. destruct Hh as [_ Hh]. cbn [fst] in Hh. unfold acc'. fold pd in Hh.
          apply Qcltb_true in Hh. rewrite Hh, map_app, in_app_iff. right. left. reflexivity.
        - assert (K : In j (map fst acc)) by (apply (Hc j h); [lia|exact Eh|exact Hh]).
          unfold acc'. destruct (Qcltb 0 pd); [rewrite map_app, in_app_iff; left|]; exact K. }
      destruct (negb (n =? -1)%Z && (n <=? Z.of_nat (length acc'))%Z) eqn:Eb.
      * apply andb_true_iff in Eb. destruct Eb as [_ Eb]. apply Z.leb_le in Eb.
        split; [exact Ho'|]. split; [intros p Hp; apply He'; exact Hp|]. split; [exact Hl'|].
        intros j h Hj Hh Hni. split; [lia|]. intros p Hp. destruct (He' p Hp) as [H1 _].
        destruct (Nat.lt_ge_cases j (S i)) as [H2|H2]; [|lia]. exfalso. apply Hni. eapply Hc'; eauto.
      * apply (IH (pre ++ [g]) (S i) acc'); auto.
        -- rewrite <- app_assoc. exact Es.
        -- rewrite app_length. cbn. lia.
        -- apply andb_false_iff in Eb. destruct Eb as [Eb|Eb].
           ++ apply negb_false_iff, Z.eqb_eq in Eb. lia.
           ++ apply Z.leb_gt in Eb. lia.
Qed.

Lemma count_ok : forall cfg nM, (- 2 ^ 31 <= cfg < 2 ^ 31)%Z -> (Z.of_nat nM < 2 ^ 31)%Z ->
  ((0 <= cfg)%Z -> eval_count cfg nM = Z.min cfg (Z.of_nat nM)) /\
  ((cfg < 0)%Z -> eval_count cfg nM = Z.of_nat nM).
Proof.
  intros cfg nM H1 H2. unfold eval_count. split; intros H.
  - rewrite Z.mod_small by lia. destruct (Z.ltb_spec (Z.of_nat nM) cfg); lia.
  - rewrite <- (Z.mod_unique_pos cfg (2 ^ 32) (-1) (cfg + 2 ^ 32)) by lia.
    destruct (Z.ltb_spec (Z.of_nat nM) (cfg + 2 ^ 32)); [reflexivity|lia].
Qed.

Lemma sorted_bound : forall l n, StronglySorted lt l -> (forall x, In x l -> (x < n)%nat) -> (length l <= n)%nat.
Proof.
  intros l n Hs Hl. assert (N : NoDup l).
  { induction Hs as [|x l H IH HF]; constructor.
    - intros Hx. rewrite Forall_forall in HF. specialize (HF x Hx). lia.
    - apply IH. intros y Hy. apply Hl. right. exact Hy. }
  assert (K := NoDup_incl_length N (l' := seq 0 n)). rewrite seq_length in K. apply K.
  intros x Hx. apply in_seq. specialize (Hl x Hx). lia.
Qed.

Lemma sorted_desc : forall (s : list (T * Qc)) i j g h, StronglySorted (fun a b => snd b <= snd a) s -> (i < j)%nat ->
  nth_error s i = Some h -> nth_error s j = Some g -> snd g <= snd h.
Proof.
  induction s as [|a s IH]; intros [|i] [|j] g h Hs Hij Hi Hj; try lia; try discriminate; cbn in Hi, Hj.
  - injection Hi as <-. inversion Hs as [|? ? _ HF]; subst. rewrite Forall_forall in HF. apply HF. eapply nth_error_In, Hj.
  - inversion Hs; subst. apply (IH i j); auto. lia.
Qed.

Lemma map_sorted : forall (s : list (gauss T)), StronglySorted (fun a b => g_w b <= g_w a) s ->
  StronglySorted (fun a b : T * Qc => snd b <= snd a) (map proj s).
Proof.
  induction 1 as [|g s H IH HF]; cbn [map]; constructor; [exact IH|].
  rewrite Forall_forall in *. intros x Hx. apply in_map_iff in Hx. destruct Hx as (y & <- & Hy). cbn. auto.
Qed.

(** The loop finds the heaviest eligible Gaussians. *)
Theorem selection : forall thr cfg (s : list (gauss T)), (- 2 ^ 31 <= cfg < 2 ^ 31)%Z -> (Z.of_nat (length s) < 2 ^ 31)%Z ->
  cfg <> 0%Z -> s <> [] -> StronglySorted (fun a b => g_w b <= g_w a) s ->
  let ev := pick T probDet thr (eval_count cfg (length s)) 0 s [] in
  heaviest T probDet thr cfg (map proj s) (map fst ev) /\
  exists ps, points T s ev = Val ps /\ found T probDet (map proj s) (map fst ev) ps.
Proof.
  intros thr cfg s Hc Hm Hz Hne Hs ev. destruct (count_ok cfg (length s) Hc Hm) as [C1 C2].
  assert (L1 : (1 <= length s)%nat) by (destruct s; [contradiction|cbn; lia]).
  assert (N1 : (1 <= eval_count cfg (length s))%Z) by (destruct (Z.lt_ge_cases cfg 0); [rewrite C2|rewrite C1]; lia).
  destruct (pick_ok s thr _ N1 Hs s [] 0%nat [] eq_refl eq_refl) as (S1 & S2 & S3 & S4);
    [constructor|intros p []|cbn; lia|intros; lia|]. fold ev in S1, S2, S3, S4.
  assert (Hlt : forall x, In x (map fst ev) -> (x < length s)%nat).
  { intros x Hx. apply in_map_iff in Hx. destruct Hx as (p & <- & Hp). destruct (S2 p Hp) as (g & Eg & _).
    apply nth_error_Some. congruence. }
  assert (Hev := sorted_bound (map fst ev) (length s) S1 Hlt). rewrite map_length in Hev.
  split.
  - split; [exact S1|]. split; [|split].
    + intros i Hi. apply in_map_iff in Hi. destruct Hi as (p & <- & Hp). destruct (S2 p Hp) as (g & Eg & Hg & _).
      exists (proj g). split; [rewrite nth_error_map, Eg; reflexivity|exact Hg].
    + intros H. rewrite map_length. rewrite C1 in S3 by exact H. lia.
    + intros j g Ej Hg Hni. rewrite nth_error_map in Ej. destruct (nth_error s j) as [g0|] eqn:E0; [|discriminate].
      cbn in Ej. injection Ej as <-. destruct (S4 j g0 E0 Hg Hni) as [A1 A2]. rewrite map_length. split.
      * assert (K : (length ev < length s)%nat).
        { assert (B : (length (map fst ev ++ [j]) <= length s)%nat).
          { assert (N : NoDup (map fst ev ++ [j])).
            { clear - S1 Hni.
              assert (NoDup (map fst ev)).
              { induction S1 as [|x l H IH HF]; constructor.
                - intros Hx. rewrite Forall_forall in HF. specialize (HF x Hx). lia.
                - apply IH. intros Q. apply Hni. right. exact Q. }
              rewrite <- (rev_involutive (map fst ev ++ [j])). apply NoDup_rev. rewrite rev_app_distr. cbn. constructor.
              - rewrite <- in_rev. exact Hni.
              - apply NoDup_rev. exact H. }
            assert (Q := NoDup_incl_length N (l' := seq 0 (length s))). rewrite seq_length in Q. apply Q.
            intros x Hx. apply in_seq. apply in_app_or in Hx. destruct Hx as [Hx|[<-|[]]]; [specialize (Hlt x Hx); lia|].
            assert (nth_error s j <> None) by congruence. apply nth_error_Some in H. lia. }
          rewrite app_length, map_length in B. cbn in B. lia. }
        destruct (Z.lt_ge_cases cfg 0) as [H|H]; [rewrite C2 in A1 by exact H|rewrite C1 in A1 by exact H]; lia.
      * intros i h Hi Eh. apply in_map_iff in Hi. destruct Hi as (p & <- & Hp).
        apply (sorted_desc (map proj s) (fst p) j); auto.
        -- apply map_sorted. exact Hs.
        -- rewrite nth_error_map, E0. reflexivity.
  - clear S1 S3 S4 Hev Hlt. revert S2. generalize ev. clear. induction ev as [|[i pd] ev IH]; intros H.
    + exists []. split; [reflexivity|constructor].
    + destruct (IH (fun p Hp => H p (or_intror Hp))) as (ps & E & F).
      destruct (H (i, pd) (or_introl eq_refl)) as (g & Eg & _ & Ep). cbn [fst snd] in *.
      exists ((g_lm g, pd) :: ps). split.
      * cbn [points]. rewrite Eg. cbn [of_option obind]. rewrite E. reflexivity.
      * cbn [map fst]. constructor; [|exact F]. exists (g_w g). split; [rewrite nth_error_map, Eg; reflexivity|exact Ep].
Qed.
End Pick.
