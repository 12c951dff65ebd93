(** The moves of tracks in runs of the CB-MeMBer filter: what they keep, and that they are the moves of TracksModel. *)
From Coq Require Import ZArith QArith Qcanon List Bool Arith Lia.
From Verif Require Import Base ListUtil GMModel GMSpec TracksModel TracksSpec TracksProofs MemberRunModel MemberRunSpec.
Import ListNotations.
Local Open Scope nat_scope.

Section Moves.
Context {A : Type}.
Variables holds zero low : A -> bool.
Variable P : A -> Prop.

Lemma Forall_upd : forall (l : list A) i a, Forall P l -> P a -> Forall P (upd l i a).
Proof.
  intros l. induction l as [|b l IH]; intros i a H Ha; [destruct i; constructor|]. inversion H; subst.
  destruct i; cbn [upd]; constructor; auto.
Qed.
Lemma move_cases : forall ts s d, Forall P ts -> s < length ts -> d < length ts ->
  (exists ts', move holds ts s d = Val ts' /\ Forall P ts' /\ length ts' = length ts) \/
  (move holds ts s d = UB UseAfterFree /\ s = d /\ exists a, nth_error ts d = Some a /\ holds a = true).
Proof.
  intros ts s d H Hs Hd. unfold move. destruct (nth_error ts s) as [a|] eqn:Ea; [|apply nth_error_None in Ea; lia].
  destruct (nth_error ts d) as [b|] eqn:Eb; [|apply nth_error_None in Eb; lia]. cbn [of_option obind].
  destruct (Nat.eqb_spec s d) as [->|N]; cbn [andb].
  - destruct (holds a) eqn:Ha; [right; split; [reflexivity|]; split; [reflexivity|]; exists a; split; [congruence|exact Ha]|].
    left. eexists. split; [reflexivity|]. rewrite upd_length. split; [|reflexivity]. apply Forall_upd; [exact H|].
    rewrite Forall_forall in H. apply H, (nth_error_In _ _ Ea).
  - left. eexists. split; [reflexivity|]. rewrite upd_length. split; [|reflexivity]. apply Forall_upd; [exact H|].
    rewrite Forall_forall in H. apply H, (nth_error_In _ _ Ea).
Qed.

Lemma squeeze_loop_ok : (forall x, P x -> zero x = true -> holds x = false) -> forall nM nZ zs k ts unused, Forall P ts -> length ts = nM + nZ ->
  zs = seq k (nZ - k) -> k <= nZ -> length unused <= k -> (forall z, In z unused -> z < nZ) ->
  exists ts' us, squeeze_loop holds zero ts nM nZ zs unused = Val (ts', us) /\ Forall P ts' /\ length ts' = length ts /\ forall z, In z us -> z < nZ.
Proof.
  intros Hz nM nZ zs. induction zs as [|z zs IH]; intros k ts unused H L E Hk Hu Hin; cbn [squeeze_loop].
  { exists ts, unused. auto. }
  assert (nZ - k = S (nZ - S k)) as E2 by (destruct (nZ - k) eqn:D; cbn in E; [discriminate|lia]).
  rewrite E2 in E. cbn [seq] in E. injection E as -> E.
  destruct (nth_error ts (nM + k)) as [x|] eqn:Ex; [|apply nth_error_None in Ex; lia]. cbn [of_option obind].
  destruct (zero x) eqn:Zx.
  - destruct (move_cases ts (nM + nZ - 1 - length unused) (nM + k) H) as [(ts' & Em & F' & L')|(_ & _ & a & Ea & Ha)]; try lia.
    + rewrite Em. cbn [obind]. destruct (IH (S k) ts' (unused ++ [k]) F') as (ts2 & us & Es & F2 & L2 & I2); try lia; auto.
      * rewrite app_length. cbn. lia.
      * intros y Hy. apply in_app_iff in Hy as [Hy|[<-|[]]]; [now apply Hin|lia].
      * exists ts2, us. split; [exact Es|]. split; [exact F2|]. split; [congruence|exact I2].
    + exfalso. rewrite Ea in Ex. injection Ex as ->. rewrite Forall_forall in H. rewrite (Hz x (H x (nth_error_In _ _ Ea)) Zx) in Ha. discriminate.
  - apply (IH (S k)); auto; lia.
Qed.
Lemma squeeze_ok : (forall x, P x -> zero x = true -> holds x = false) -> forall nM nZ ts, Forall P ts -> length ts = nM + nZ ->
  exists ts' us, squeeze holds zero ts nM nZ = Val (ts', us) /\ Forall P ts' /\ forall z, In z us -> z < nZ.
Proof.
  intros Hz nM nZ ts H L. unfold squeeze. destruct (squeeze_loop_ok Hz nM nZ (seq 0 nZ) 0 ts [] H L) as (ts' & us & -> & F & _ & I).
  - now rewrite Nat.sub_0_r.
  - lia.
  - cbn. lia.
  - intros z [].
  - cbn [obind fst snd]. eexists _, _. split; [reflexivity|]. split; [|exact I]. clear - F. revert F.
    generalize (nM + nZ - length us). intros n. revert n. induction ts' as [|a l IH]; intros [|n] F; cbn [firstn]; try constructor.
    + now inversion F.
    + apply IH. now inversion F.
Qed.

(** The loop of pruneTracks: the tracks from [i] on that will be kept are not below the threshold. *)
Lemma drop_loop_ok : forall i ts k, Forall P ts -> i + k <= length ts -> (forall j x, i <= j -> j < length ts - k -> nth_error ts j = Some x -> low x = false) ->
  (exists ts' k', drop_loop holds low ts i k = Val (ts', k') /\ Forall P ts' /\ length ts' = length ts /\
     forall j x, j < length ts' - k' -> nth_error ts' j = Some x -> low x = false) \/
  drop_loop holds low ts i k = UB UseAfterFree.
Proof.
  induction i as [|i IH]; intros ts k H Hk Hj; cbn [drop_loop].
  { left. exists ts, k. split; [reflexivity|]. split; [exact H|]. split; [reflexivity|]. intros j x. apply Hj. lia. }
  destruct (nth_error ts i) as [x|] eqn:Ex; [|apply nth_error_None in Ex; lia]. cbn [of_option obind]. destruct (low x) eqn:Lx.
  - destruct (move_cases ts (length ts - 1 - k) i H) as [(ts' & Em & F' & L')|(Em & _)]; try lia.
    + rewrite Em. cbn [obind]. destruct (IH ts' (S k) F') as [(ts2 & k2 & Ed & F2 & L2 & I2)|Eu]; [lia| | |right; exact Eu].
      * intros j y J1 J2 Ey. unfold move in Em. destruct (nth_error ts (length ts - 1 - k)) as [a|] eqn:Ea; [|discriminate]. rewrite Ex in Em. cbn [of_option obind] in Em.
        destruct ((length ts - 1 - k =? i) && holds a); [discriminate|]. injection Em as <-. rewrite upd_length in J2.
        destruct (Nat.eq_dec j i) as [->|N].
        -- rewrite nth_error_upd_eq in Ey by lia. injection Ey as <-. apply (Hj (length ts - 1 - k)); [lia|lia|exact Ea].
        -- rewrite nth_error_upd_neq in Ey by auto. apply (Hj j); [lia|lia|exact Ey].
      * left. exists ts2, k2. split; [exact Ed|]. split; [exact F2|]. split; [congruence|exact I2].
    + rewrite Em. now right.
  - apply IH; [exact H|lia|]. intros j y J1 J2 Ey. destruct (Nat.eq_dec j i) as [->|N]; [congruence|]. apply (Hj j); [lia|lia|exact Ey].
Qed.
Lemma Forall_firstn : forall (Q : A -> Prop) l n, Forall Q l -> Forall Q (firstn n l).
Proof.
  intros Q l. induction l as [|a l IH]; intros [|n] F; cbn [firstn]; try constructor; inversion F; subst; auto.
Qed.
Lemma nth_first : forall (l : list A) n j, j < n -> nth_error (firstn n l) j = nth_error l j.
Proof.
  induction l as [|a l IH]; intros [|n] [|j] H; try lia; cbn [firstn nth_error]; try reflexivity. apply IH. lia.
Qed.
Lemma drop_cases : forall ts, Forall P ts ->
  (exists r, drop holds low ts = Val r /\ Forall P r /\ Forall (fun x => low x = false) r) \/ drop holds low ts = UB UseAfterFree.
Proof.
  intros ts H. unfold drop. destruct (drop_loop_ok (length ts) ts 0 H) as [(ts' & k & -> & F & L & I)| ->]; [lia| | |now right].
  - intros j x J1 J2. lia.
  - left. cbn [obind fst snd]. eexists. split; [reflexivity|]. split; [now apply Forall_firstn|]. apply Forall_forall. intros x Hx.
    apply In_nth_error in Hx as [j Hj]. assert (J : j < length (firstn (length ts' - k) ts')) by (apply nth_error_Some; congruence).
    rewrite firstn_length in J. apply (I j); [lia|]. rewrite <- Hj. symmetry. apply nth_first. lia.
Qed.
Lemma drop_none : forall ts, (forall x, In x ts -> low x = false) -> drop holds low ts = Val ts.
Proof.
  intros ts H. unfold drop. assert (E : forall i, i <= length ts -> drop_loop holds low ts i 0 = Val (ts, 0)).
  { induction i as [|i IH]; intros Hi; cbn [drop_loop]; [reflexivity|]. destruct (nth_error ts i) as [x|] eqn:Ex; [|apply nth_error_None in Ex; lia].
    cbn [of_option obind]. rewrite (H x (nth_error_In _ _ Ex)). apply IH. lia. }
  rewrite E by lia. cbn [obind fst snd]. now rewrite Nat.sub_0_r, firstn_all.
Qed.
End Moves.

(** ** The same moves in memory *)
Lemma vholds_iff : forall v, vholds v = true <-> holds_gaussian v.
Proof. intros v. unfold vholds, holds_gaussian. rewrite negb_true_iff, Z.eqb_neq. reflexivity. Qed.


Lemma mem_bind : forall {X Y X' Y' : Type} (R : X -> Y -> Prop) (S : X' -> Y' -> Prop) a b f g, mem_same R a b ->
  (forall x y, R x y -> mem_same S (f x) (g y)) -> mem_same S (obind a f) (obind b g).
Proof. intros X Y X' Y' R S a b f g H K. destruct a, b; cbn in H; try contradiction; [now apply K|exact H]. Qed.
Lemma mem_weaken : forall {X Y : Type} (R S : X -> Y -> Prop) a b, mem_same R a b -> (forall x y, R x y -> S x y) -> mem_same S a b.
Proof. intros X Y R S a b H K. destruct a, b; cbn in *; try contradiction; auto. Qed.
Lemma nth_views : forall h ts i, mem_same (fun v t => v = tview_of h t /\ nth_error ts i = Some t) (of_option OutOfBounds (nth_error (tviews h ts) i)) (of_option OutOfBounds (nth_error ts i)).
Proof.
  intros h ts i. destruct (nth_error ts i) as [x|] eqn:Ex.
  - rewrite (tviews_nth _ _ _ _ Ex). cbn. auto.
  - assert (nth_error (tviews h ts) i = None) as ->; [|reflexivity]. apply nth_error_None. rewrite tviews_len. now apply nth_error_None.
Qed.
Lemma intact_trans : forall h1 h2 h3 F, intact h1 h2 F -> intact h2 h3 F -> intact h1 h3 F.
Proof. intros h1 h2 h3 F H K p Hp. rewrite (K p Hp). now apply H. Qed.

Section Memory.
Variable F : list nat.
Lemma move_mem : forall h ts s d, tgood h ts F ->
  mem_same (fun V hb => tgood (fst hb) (snd hb) F /\ intact h (fst hb) F /\ length (snd hb) = length ts /\ V = tviews (fst hb) (snd hb))
    (move vholds (tviews h ts) s d) (copy_at h ts s d).
Proof.
  intros h ts s d Hg. unfold move. destruct (nth_error ts s) as [a|] eqn:Es; [rewrite (tviews_nth _ _ _ _ Es)|].
  2:{ assert (nth_error (tviews h ts) s = None) as ->. { apply nth_error_None. rewrite tviews_len. now apply nth_error_None. } cbn. unfold copy_at. rewrite Es. reflexivity. }
  destruct (nth_error ts d) as [b|] eqn:Ed; [rewrite (tviews_nth _ _ _ _ Ed)|].
  2:{ assert (nth_error (tviews h ts) d = None) as ->. { apply nth_error_None. rewrite tviews_len. now apply nth_error_None. } cbn. unfold copy_at. rewrite Es, Ed. reflexivity. }
  cbn [of_option obind]. destruct (Nat.eqb_spec s d) as [->|N]; cbn [andb].
  - rewrite Ed in Es. injection Es as <-. destruct (copy_at_self h ts d b F Hg Ed) as [K1 K2]. destruct (vholds (tview_of h b)) eqn:V.
    + rewrite K2 by now apply vholds_iff. reflexivity.
    + rewrite K1. 2:{ intros C. apply vholds_iff in C. congruence. }
      cbn. split; [exact Hg|]. split; [intros p Hp; auto|]. split; [reflexivity|]. unfold tviews. rewrite <- map_upd. f_equal.
      destruct (upd_split _ ts d b b Ed) as (A & B & E & _ & U). now rewrite U, E.
  - destruct (copy_at_ok h ts s d a b F Hg N Es Ed) as (h' & ts' & -> & G' & I' & V'). cbn. split; [exact G'|]. split; [exact I'|]. split; [|now symmetry].
    apply (f_equal (@length _)) in V'. rewrite upd_length, !tviews_len in V'. exact V'.
Qed.
Definition rel (h : heap) (n : nat) (V : list tview) (h' : heap) (ts' : list track) : Prop :=
  tgood h' ts' F /\ intact h h' F /\ length ts' = n /\ V = tviews h' ts'.
Lemma rel_next : forall h n h1 ts1 m V h2 ts2, rel h n (tviews h1 ts1) h1 ts1 -> length ts1 = m -> rel h1 m V h2 ts2 -> rel h n V h2 ts2.
Proof.
  intros h n h1 ts1 m V h2 ts2 (A1 & A2 & A3 & _) Hm (B1 & B2 & B3 & B4). split; [exact B1|]. split; [eapply intact_trans; eassumption|]. split; [congruence|exact B4].
Qed.
Lemma rel_refl : forall h ts, tgood h ts F -> rel h (length ts) (tviews h ts) h ts.
Proof. intros h ts H. split; [exact H|]. split; [intros p Hp; auto|auto]. Qed.

Lemma squeeze_loop_mem : forall nM nZ zs h ts us, tgood h ts F ->
  mem_same (fun V hb => rel h (length ts) (fst V) (fst (fst hb)) (snd (fst hb)) /\ snd V = snd hb)
    (squeeze_loop vholds zeroP (tviews h ts) nM nZ zs us) (compact_loop h ts nM nZ zs us).
Proof.
  intros nM nZ. induction zs as [|z zs IH]; intros h ts us Hg; cbn [squeeze_loop compact_loop].
  { cbn [mem_same fst snd]. split; [now apply rel_refl|reflexivity]. }
  eapply mem_bind; [apply nth_views|]. cbn beta. intros v t [-> Et]. change (Qeq_bool (tp t) 0) with (zeroP (tview_of h t)).
  destruct (zeroP (tview_of h t)); [|now apply IH].
  eapply mem_bind; [apply (move_mem _ _ _ _ Hg)|]. cbn beta. intros V [h1 ts1] (G1 & I1 & L1 & ->). cbn [fst snd] in *.
  eapply mem_weaken; [apply (IH h1 ts1 (us ++ [z]) G1)|]. cbn beta. intros V [[h2 ts2] us2] [R E]. cbn [fst snd] in *. split; [|exact E].
  eapply rel_next; [|reflexivity|exact R]. split; [exact G1|]. auto.
Qed.
Lemma squeeze_mem : forall nM nZ h ts, tgood h ts F -> length ts = nM + nZ ->
  mem_same (fun V hb => tgood (fst (fst hb)) (snd (fst hb)) F /\ intact h (fst (fst hb)) F /\ fst V = tviews (fst (fst hb)) (snd (fst hb)) /\ snd V = snd hb)
    (squeeze vholds zeroP (tviews h ts) nM nZ) (compact h ts nM nZ).
Proof.
  intros nM nZ h ts Hg L. unfold squeeze, compact. eapply mem_bind; [apply (squeeze_loop_mem nM nZ (seq 0 nZ) h ts [] Hg)|]. cbn beta.
  intros [V us] [[h1 ts1] us1] [(G1 & I1 & L1 & E1) E]. cbn [fst snd] in *. subst us V.
  destruct (resize_down h1 ts1 (nM + nZ - length us1) F G1) as (h2 & E2 & G2 & I2 & V2); [lia|].
  rewrite E2. cbn [obind mem_same fst snd]. split; [exact G2|]. split; [eapply intact_trans; eassumption|]. split; [now symmetry|reflexivity].
Qed.

Lemma drop_loop_mem : forall t i h ts k, tgood h ts F ->
  mem_same (fun V hb => rel h (length ts) (fst V) (fst (fst hb)) (snd (fst hb)) /\ snd V = snd hb)
    (drop_loop vholds (fun v => Qltb (tvP v) t) (tviews h ts) i k) (prune_loop h ts t i k).
Proof.
  intros t. induction i as [|i IH]; intros h ts k Hg; cbn [drop_loop prune_loop].
  { cbn [mem_same fst snd]. split; [now apply rel_refl|reflexivity]. }
  eapply mem_bind; [apply nth_views|]. cbn beta. intros v x [-> Et]. change (tvP (tview_of h x)) with (tp x).
  destruct (Qltb (tp x) t); [|now apply IH]. rewrite tviews_len.
  eapply mem_bind; [apply (move_mem _ _ _ _ Hg)|]. cbn beta. intros V [h1 ts1] (G1 & I1 & L1 & ->). cbn [fst snd] in *.
  eapply mem_weaken; [apply (IH h1 ts1 (S k) G1)|]. cbn beta. intros V [[h2 ts2] us2] [R E]. cbn [fst snd] in *. split; [|exact E].
  eapply rel_next; [|reflexivity|exact R]. split; [exact G1|]. auto.
Qed.
Lemma drop_mem : forall t h ts, tgood h ts F ->
  mem_same (fun V hb => tgood (fst hb) (snd hb) F /\ intact h (fst hb) F /\ V = tviews (fst hb) (snd hb))
    (drop vholds (fun v => Qltb (tvP v) t) (tviews h ts)) (pruneTracks h ts t).
Proof.
  intros t h ts Hg. unfold drop, pruneTracks. rewrite tviews_len. eapply mem_bind; [apply (drop_loop_mem t (length ts) h ts 0 Hg)|]. cbn beta.
  intros [V k] [[h1 ts1] k1] [(G1 & I1 & L1 & E1) E]. cbn [fst snd] in *. subst k V. rewrite tviews_len.
  destruct (resize_down h1 ts1 (length ts1 - k1) F G1) as (h2 & E2 & G2 & I2 & V2); [lia|].
  rewrite E2. cbn [mem_same fst snd]. split; [exact G2|]. split; [eapply intact_trans; eassumption|]. now symmetry.
Qed.
End Memory.
