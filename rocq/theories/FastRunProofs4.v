(** The map updates of FastModel keep particles and make at most maxNDataAssocHypotheses_ of one. *)
From Coq Require Import ZArith QArith Qcanon List Bool Arith Lia.
From Verif Require Import Base ListUtil QcLra Loop HungarianModel ReduceModel MurtyModel BirthModel FastModel.
Import ListNotations.
Local Open Scope nat_scope.

Lemma find_count : forall pick M M' k a s, findNextBest pick M = Val (M', (k, a, s)) -> k <> (-1)%Z ->
  k = Z.of_nat (S (mk M)) /\ mk M' = S (mk M).
Proof.
  intros pick M M' k a s H Hk. unfold findNextBest in H. destruct (Nat.eqb_spec (mk M) 0) as [E|E].
  - destruct (hungarian (mC M) (mn M) true) as [r| |]; try discriminate. cbn [obind] in H.
    destruct (snd r) as [[b t]|]; [|discriminate]. injection H as <- <- _ _. rewrite E. cbn. auto.
  - destruct (pick (mq M)) as [[parent q]|]; [|injection H; congruence].
    destruct (make_children _ _ _) as [cs| |]; try discriminate. cbn [obind] in H.
    destruct (pick (q ++ cs)) as [[hi q']|]; [|injection H; congruence]. injection H as <- <- _ _. auto.
Qed.

Section Fast.
Context {T : Type}.
Variable pdet : T -> Qc * bool.
Variable logl : T -> option (nat -> Z).
Variable correct : nat -> T -> option T.
Variable inv : nat -> T.
Variable near : T -> nat -> bool.
Variable corr : T -> nat -> T.
Variable expo : Z -> Qc.
Variable prn : list (Qc * T) -> list (Qc * T).
Variable pick : list node -> option (node * list node).
Variable big : Z.
Variable nZ : nat.
Variable pfa : Qc.
Variables lim maxDiff : Z.
Variable maxN : nat.
Variables prior lock : Qc.
Variables cntT chkT curT pruneT : nat.

Lemma hyps_bound : forall fuel nr f imap jmap M nH da H ds, mk M = nH -> nH <= maxN ->
  hyps pick nZ maxDiff maxN fuel nr f imap jmap M nH da = Val (H, ds) -> H <= maxN.
Proof using.
  induction fuel as [|fuel IH]; intros nr f imap jmap M nH da H ds Hk Hle E; cbn [hyps] in E.
  - destruct (nH <? maxN); [discriminate|]. injection E as <- _. exact Hle.
  - destruct (Nat.ltb_spec nH maxN) as [Hlt|Hge]; [|injection E as <- _; exact Hle].
    destruct (findNextBest pick M) as [[M' [[k a] s]]| |] eqn:Ef; try discriminate. cbn [obind] in E.
    destruct (Z.eqb_spec k (-1)) as [_|Hn]; [injection E as <- _; exact Hle|].
    destruct (find_count _ _ _ _ _ _ Ef Hn) as [-> Hm]. rewrite Nat2Z.id in E.
    destruct (maxDiff <=? mbest M' - s)%Z; [injection E as <- _; lia|].
    destruct a as [a'|]; [|discriminate]. cbn [of_option obind] in E.
    destruct (for_ nr (remap nZ imap jmap a') f) as [d| |]; try discriminate. cbn [obind] in E.
    apply IH in E; [exact E|exact Hm|lia].
Qed.

Lemma split_counts : forall res i nH (p : Qc * list (Qc * T)) s s', split res i nH p s = Val s' ->
  length (fparts s') = length (fparts s) + (nH - 1) /\ length (fcands s') = length (fcands s).
Proof using.
  intros res i nH p s s' H. unfold split in H.
  set (parts := upd (fparts s) i (fst p / QcN nH, snd p)%Qc ++ repeat (fst p / QcN nH, snd p)%Qc (nH - 1)) in H.
  assert (L : length parts = length (fparts s) + (nH - 1)) by (unfold parts; rewrite app_length, upd_length, repeat_length; reflexivity).
  destruct res; [|injection H as <-; cbn; auto].
  destruct (nth_error (fcands s) i) as [c|]; [|discriminate]. cbn [of_option obind] in H.
  destruct (for_ (nH - 1) _ (fcands s)) as [cs| |] eqn:E; try discriminate. cbn [obind] in H. injection H as <-. cbn.
  split; [exact L|].
  assert (G : forall n k (c0 c1 : list (list (cand T))), for_from (fun h cs => if length parts - S h <? length cs then Val (upd cs (length parts - S h) c) else UB OutOfBounds) k n c0 = Val c1 -> length c1 = length c0).
  { induction n as [|n IH]; intros k c0 c1 H; cbn [for_from] in H; [injection H as <-; reflexivity|].
    destruct (length parts - S k <? length c0); [|discriminate]. cbn [obind] in H. rewrite (IH _ _ _ H). apply upd_length. }
  exact (G _ _ _ _ E).
Qed.

Lemma hyp_loop_counts : forall tab vis da i n k (s s' : @fast T),
  for_from (hyp_step correct inv near corr expo prn nZ pfa lim prior lock cntT chkT curT pruneT tab vis da i) k n s = Val s' ->
  length (fparts s') = length (fparts s) /\ length (fcands s') = length (fcands s).
Proof using.
  intros tab vis da i. induction n as [|n IH]; intros k s s' H; cbn [for_from] in H; [injection H as <-; auto|].
  destruct (hyp_step _ _ _ _ _ _ _ _ _ _ _ _ _ _ _ tab vis da i k s) as [s1| |] eqn:E; try discriminate. cbn [obind] in H.
  destruct (IH _ _ _ H) as [-> ->]. unfold hyp_step in E.
  destruct (nth_error da k) as [d|]; [|discriminate]. cbn [of_option obind] in E.
  set (j := slot_of i k (length (fparts s))) in E.
  destruct (nth_error (fparts s) j) as [p|]; [|discriminate]. cbn [of_option obind] in E.
  destruct (nth_error (fcands s) j) as [cs|]; [|discriminate]. cbn [of_option obind] in E.
  destruct (nth_error (ffov s) j) as [v|]; [|discriminate]. cbn [of_option obind] in E.
  destruct (hyp_update _ _ _ _ _ _ _ _ _ _ _ _ _ _ _ tab vis d p cs) as [[[p' cs'] fov]| |]; try discriminate. cbn [obind] in E.
  injection E as <-. cbn. now rewrite !upd_length.
Qed.

Lemma updateMap_counts : forall res i (s s' : @fast T),
  updateMap pdet logl correct inv near corr expo prn pick big nZ pfa lim maxDiff maxN prior lock cntT chkT curT pruneT res i s = Val s' ->
  length (fparts s) <= length (fparts s') <= length (fparts s) + (maxN - 1) /\ length (fcands s') = length (fcands s).
Proof using.
  intros res i s s' H. unfold updateMap in H. destruct (nth_error (fparts s) i) as [p|]; [|discriminate]. cbn [of_option obind] in H.
  destruct (reduce _ lim true) as [mr| |]; try discriminate. cbn [obind] in H.
  destruct (getReduced mr) as [[[[[[Cr nr] f] sc] imap] jmap]|]; [|discriminate].
  set (h := if nr =? 0 then _ else _) in H. destruct h as [[nH da]| |] eqn:Eh; try discriminate. cbn [obind] in H.
  assert (Hb : nH = 0 \/ nH <= maxN).
  { unfold h in Eh. destruct (nr =? 0); [injection Eh as <- _; auto|]. right. eapply hyps_bound; [|apply Nat.le_0_l|exact Eh]. reflexivity. }
  destruct (Nat.eqb_spec nH 0) as [|Hn]; [discriminate|].
  destruct (Nat.ltb_spec 1 nH) as [H1|H1].
  - destruct (split res i nH p s) as [s1| |] eqn:Es; try discriminate. cbn [obind] in H.
    destruct (split_counts _ _ _ _ _ _ Es) as [L1 L2]. destruct (hyp_loop_counts _ _ _ _ _ _ _ _ H) as [-> ->]. lia.
  - cbn [obind] in H. destruct (hyp_loop_counts _ _ _ _ _ _ _ _ H) as [-> ->]. lia.
Qed.

Theorem update_counts : forall res (s s' : @fast T), 0 < maxN ->
  update_maps pdet logl correct inv near corr expo prn pick big nZ pfa lim maxDiff maxN prior lock cntT chkT curT pruneT res s = Val s' ->
  length (fparts s) <= length (fparts s') <= length (fparts s) * maxN /\
  length (fcands s') = Nat.max (length (fparts s) * maxN) (length (fcands s)).
Proof using.
  intros res s s' Hm H. unfold update_maps in H.
  set (s1 := FA (fparts s) (grow (length (fparts s) * maxN) [] (fcands s)) (grow (length (fparts s) * maxN) 0 (ffov s))) in H.
  assert (Lc : length (fcands s1) = Nat.max (length (fparts s) * maxN) (length (fcands s))).
  { unfold s1, grow. cbn [fcands]. rewrite app_length, repeat_length. lia. }
  assert (Lp : length (fparts s1) = length (fparts s)) by reflexivity.
  destruct (nZ =? 0). { injection H as <-. rewrite Lc, Lp. split; [nia|reflexivity]. }
  assert (G : forall n k (a b : @fast T), for_from (updateMap pdet logl correct inv near corr expo prn pick big nZ pfa lim maxDiff maxN prior lock cntT chkT curT pruneT res) k n a = Val b ->
    length (fparts a) <= length (fparts b) <= length (fparts a) + n * (maxN - 1) /\ length (fcands b) = length (fcands a)).
  { induction n as [|n IH]; intros k a b E; cbn [for_from] in E; [injection E as <-; split; lia|].
    destruct (updateMap _ _ _ _ _ _ _ _ _ _ _ _ _ _ _ _ _ _ _ _ _ res k a) as [c| |] eqn:Eu; try discriminate. cbn [obind] in E.
    destruct (updateMap_counts _ _ _ _ Eu) as [A1 A2]. destruct (IH _ _ _ E) as [B1 B2]. split; [nia|congruence]. }
  destruct (G _ _ _ _ H) as [G1 G2]. rewrite Lp in G1. split; [nia|congruence].
Qed.
End Fast.
