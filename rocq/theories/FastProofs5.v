(** Proofs about FastSLAM::updateMap, part 5: all particles, distinct hypotheses, stale
    candidates, odds of existence. *)
From Coq Require Import ZArith List Bool Arith QArith Qcanon Lia Permutation Sorted.
From Verif Require Import Base ListUtil QcLra Loop HungarianModel AssignSpec AssignLemmas ReduceModel
  MurtyModel MurtySpec MurtyProofs BirthModel FastModel FastSpec FastProofs FastProofs2 FastProofs3 FastProofs4.
Import ListNotations.
Local Open Scope nat_scope.

Lemma for_O : forall (S : Type) (f : nat -> S -> outcome S) s, for_ 0 f s = Val s.
Proof. reflexivity. Qed.
Lemma for_S : forall (S : Type) (f : nat -> S -> outcome S) n s, for_ (Datatypes.S n) f s = let* t := for_ n f s in f n t.
Proof.
  intros S f n s. unfold for_. change (f n) with (f (0 + n)). generalize 0 as k. revert s. induction n as [|n IH]; intros s k.
  - cbn. rewrite Nat.add_0_r. destruct (f k s); reflexivity.
  - change (for_from f k (Datatypes.S (Datatypes.S n)) s) with (let* s' := f k s in for_from f (Datatypes.S k) (Datatypes.S n) s').
    change (for_from f k (Datatypes.S n) s) with (let* s' := f k s in for_from f (Datatypes.S k) n s').
    destruct (f k s) as [t| |]; cbn [obind]; auto. rewrite IH. now rewrite Nat.add_succ_r.
Qed.

(** ** Odds of existence *)
Section Odds.
Variables prior lock : Qc.

Definition sight_ok (e : sighting) : Prop := (0 <= sg_pd e <= 1)%Qc /\ (0 < sg_pfa e < 1)%Qc.

Lemma bayes_range : forall p e, (0 <= p)%Qc -> (p < 1)%Qc -> sight_ok e ->
  (0 <= bayes p e)%Qc /\ (bayes p e < 1)%Qc /\
  (bayes p e / (1 - bayes p e) = p / (1 - p) * (if sg_seen e then seen_factor (sg_pfa e) (sg_pd e) else missed_factor (sg_pd e)))%Qc.
Proof.
  intros p [seen pd f] H0 H1 [[Hpd0 Hpd1] [Hf0 Hf1]]. cbn [sg_seen sg_pd sg_pfa] in *.
  assert (He : (0 <= sight_exists (Sight seen pd f))%Qc).
  { unfold sight_exists. cbn [sg_seen sg_pd sg_pfa]. destruct seen; clear - Hpd0 Hpd1 Hf0 Hf1; qcnra. }
  assert (Ha : (0 < sight_absent (Sight seen pd f))%Qc).
  { unfold sight_absent. cbn [sg_seen sg_pd sg_pfa]. destruct seen; clear - Hf0 Hf1; qclra. }
  unfold bayes. set (x := sight_exists (Sight seen pd f)) in *. set (y := sight_absent (Sight seen pd f)) in *.
  assert (Hpx : (0 <= p * x)%Qc) by (clear - H0 He; qcnra).
  assert (Hpy : (0 < (1 - p) * y)%Qc) by (clear - H1 Ha; qcnra).
  set (X := (p * x)%Qc) in *. set (Y := ((1 - p) * y)%Qc) in *.
  assert (Hd : (0 < X + Y)%Qc) by (clear - Hpx Hpy; qclra).
  assert (Hdn := Qcpos_neq _ Hd).
  assert (E1 : (1 - X / (X + Y) = Y / (X + Y))%Qc) by (field; exact Hdn).
  assert (Hq : (X / (X + Y) * (X + Y) = X)%Qc) by (field; exact Hdn).
  assert (Hq' : (Y / (X + Y) * (X + Y) = Y)%Qc) by (field; exact Hdn).
  split; [|split].
  - destruct (Qclt_le_dec (X / (X + Y)) 0) as [K|K]; [|exact K]. exfalso. set (q := (X / (X + Y))%Qc) in *. clearbody q. clear - K Hd Hq Hpx. qcnra.
  - destruct (Qclt_le_dec (X / (X + Y)) 1) as [K|K]; [exact K|]. exfalso. set (q := (X / (X + Y))%Qc) in *. clearbody q. clear - K Hd Hq Hpy. qcnra.
  - rewrite E1. assert (HYn := Qcpos_neq _ Hpy).
    assert (Hpn : (1 - p)%Qc <> 0%Qc) by (apply Qcpos_neq; clear - H1; qclra).
    assert (Hyn := Qcpos_neq _ Ha). assert (Hfn := Qcpos_neq _ Hf0).
    assert (Hf1n : (1 - f)%Qc <> 0%Qc) by (apply Qcpos_neq; clear - Hf1; qclra).
    replace (X / (X + Y) / (Y / (X + Y)))%Qc with (X / Y)%Qc by (field; auto).
    unfold X, Y, x, y, sight_exists, sight_absent, seen_factor, missed_factor. cbn [sg_seen sg_pd sg_pfa].
    destruct seen; field; auto.
Qed.

Lemma odds_history : prior = (1 / (1 + 1))%Qc -> forall es p,
  (0 <= p)%Qc -> (p < 1)%Qc -> Forall sight_ok es ->
  exists q, (0 <= q)%Qc /\ (q < 1)%Qc /\ q = fold_left (bayes_lock lock) es p /\
    fold_left (fun o e => let* w := o in exist_update (sg_pfa e) prior lock (sg_seen e) (sg_pd e) w) es (Val (p / (1 - p))%Qc)
    = Val (q / (1 - q))%Qc.
Proof.
  intros Hprior es. induction es as [|e es IH]; intros p H0 H1 Hes.
  - exists p. cbn [fold_left]. auto.
  - inversion Hes as [|? ? Hok Hes']; subst. cbn [fold_left obind].
    assert (Hp0 : (0 < 1 / (1 + 1))%Qc) by reflexivity. assert (Hp1 : (1 / (1 + 1) < 1)%Qc) by reflexivity.
    destruct (bayes_range p e H0 H1 Hok) as (B0 & B1 & B2). destruct Hok as [[Hd0 Hd1] [Hf0 Hf1]].
    assert (Ho : prior_odds (1 / (1 + 1))%Qc = 1%Qc) by (apply Qc_is_canon; reflexivity).
    destruct (sg_seen e) eqn:Es.
    + rewrite (seen_update (sg_pfa e) (1 / (1 + 1))%Qc lock Hf0 Hp0 Hp1 (sg_pd e) _ Hd0 Hd1), Ho.
      replace (p / (1 - p) * (1 * seen_factor (sg_pfa e) (sg_pd e)))%Qc with (bayes p e / (1 - bayes p e))%Qc by (rewrite B2; ring).
      unfold bayes_lock at 2. rewrite Es. cbn [negb andb]. apply IH; auto.
    + rewrite (missed_update (sg_pfa e) (1 / (1 + 1))%Qc lock Hp0 Hp1 (sg_pd e) _ Hd0 Hd1), Ho.
      unfold bayes_lock at 2. rewrite Es. cbn [negb andb]. destruct (Qcltb lock (p / (1 - p))); [apply IH; auto|].
      replace (p / (1 - p) * (1 * missed_factor (sg_pd e)))%Qc with (bayes p e / (1 - bayes p e))%Qc by (rewrite B2; ring).
      apply IH; auto.
Qed.
End Odds.

Section Fast.
Context {T : Type}.
Variable pdet : T -> Qc * bool.
Variable logl : T -> option (nat -> Z).
Variable correct : nat -> T -> option T.
Variable inv : nat -> T.
Variable near : T -> nat -> bool.
Variable corr : T -> nat -> T.
Variable expo : Z -> Qc.
Variable prn : list (Qc * T) -> list (Qc * T).
Variable pick : list node -> option (node * list node).
Variable big : Z.
Variable nZ : nat.
Variable pfa : Qc.
Variables lim maxDiff : Z.
Variable maxN : nat.
Variables prior lock : Qc.
Variables cntT chkT curT pruneT : nat.

Notation step cT := (updateMap pdet logl correct inv near corr expo prn pick big nZ pfa lim maxDiff maxN prior lock cT chkT curT pruneT).
Notation steps cT := (update_maps pdet logl correct inv near corr expo prn pick big nZ pfa lim maxDiff maxN prior lock cT chkT curT pruneT).
Notation cons_ M := (consistent pdet logl nZ lim M).
Notation gain_ M := (gain logl lim M).
Notation upd_ := (updated pdet logl correct inv expo prn nZ pfa lim prior lock pruneT).

(** ** Distinct hypotheses *)
Lemma option_eq_dec : forall x y : option nat, {x = y} + {x <> y}.
Proof. decide equality. apply Nat.eq_dec. Qed.

Lemma assoc_distinct : forall M, (forall w t z, In (w, t) M -> in_sight pdet t = true -> z < nZ -> (lim < loglik logl lim t z)%Z) ->
  seen_count pdet M <= S nZ -> nZ <= S (seen_count pdet M) ->
  forall a a' b b', assignment (Nat.max (length (visible pdet 0 M)) nZ) b -> assignment (Nat.max (length (visible pdet 0 M)) nZ) b' -> b <> b' ->
  (forall k, a k = assoc_of pdet logl nZ lim M b k) -> (forall k, a' k = assoc_of pdet logl nZ lim M b' k) ->
  exists k, a k <> a' k.
Proof.
  intros M Hall Hc1 Hc2 a a' b b' Hb Hb' Hne Ea Ea'.
  set (V := visible pdet 0 M) in *. assert (LV : length V = seen_count pdet M) by apply vis_length.
  set (n := Nat.max (length V) nZ) in *.
  destruct (existsb (fun k => negb (if option_eq_dec (a k) (a' k) then true else false)) (seq 0 (length M))) eqn:Ex.
  { apply existsb_exists in Ex. destruct Ex as (k & _ & Hk). exists k. destruct (option_eq_dec (a k) (a' k)); [discriminate|auto]. }
  exfalso. apply Hne.
  assert (Eq : forall k, k < length M -> assoc_of pdet logl nZ lim M b k = assoc_of pdet logl nZ lim M b' k).
  { intros k Hk. rewrite <- Ea, <- Ea'. destruct (option_eq_dec (a k) (a' k)) as [E|E]; [exact E|]. exfalso.
    enough (existsb (fun k => negb (if option_eq_dec (a k) (a' k) then true else false)) (seq 0 (length M)) = true) by congruence.
    apply existsb_exists. exists k. split; [apply in_seq; lia|]. destruct (option_eq_dec (a k) (a' k)); [contradiction|reflexivity]. }
  assert (Lb := assignment_length _ _ Hb). assert (Lb' := assignment_length _ _ Hb').
  assert (Hrow : forall c m k t pd, assignment n c -> nth_error V m = Some (k, t, pd) -> exists y, nth_error c m = Some y /\ y < n /\
    assoc_of pdet logl nZ lim M c k = if y <? nZ then Some y else None).
  { intros c m k t pd Hc Hm. assert (Lm := nth_error_lt _ _ _ _ Hm). assert (Lc := assignment_length _ _ Hc).
    destruct (nth_error_ex _ c m ltac:(lia)) as [y Hy]. exists y. split; [exact Hy|]. split.
    - assert (K := nth_error_In _ _ Hy). apply (Permutation_in _ Hc) in K. apply in_seq in K. lia.
    - unfold assoc_of, assoc. rewrite (V_idx _ _ _ _ _ _ Hm), Hy. cbn [pass]. destruct (Nat.ltb_spec y nZ) as [Hz|Hz]; [|reflexivity]. cbn [andb].
      rewrite (table_V pdet logl nZ lim M m k t pd y Hm Hz). destruct (vis_nth _ _ _ _ _ _ _ Hm) as (_ & [w0 Hw0] & Hs & _).
      assert (K := Hall w0 t y (nth_error_In _ _ Hw0) Hs Hz). destruct (Z.ltb_spec lim (Z.max lim (loglik logl lim t y))); [reflexivity|lia]. }
  assert (Hsame : forall m, m < length V -> nth_error b m = nth_error b' m).
  { intros m Hm. destruct (nth_error_ex _ V m Hm) as [[[k t] pd] Hv]. destruct (vis_nth _ _ _ _ _ _ _ Hv) as (_ & [w0 Hw0] & _).
    destruct (Hrow b m k t pd Hb Hv) as (y & Ey & Ly & E1). destruct (Hrow b' m k t pd Hb' Hv) as (y' & Ey' & Ly' & E2).
    assert (Hk := nth_error_lt _ _ _ _ Hw0). rewrite Nat.sub_0_r in Hk. rewrite (Eq k Hk), E2 in E1.
    rewrite Ey, Ey'. f_equal. destruct (Nat.ltb_spec y nZ), (Nat.ltb_spec y' nZ); try discriminate; [congruence|lia]. }
  assert (Hf : firstn (length V) b = firstn (length V) b').
  { apply list_ext. intros m. destruct (Nat.lt_ge_cases m (length V)) as [Hm|Hm].
    - rewrite !nth_error_firstn by lia. now apply Hsame.
    - rewrite !(proj2 (nth_error_None _ _)) by (rewrite firstn_length; lia). reflexivity. }
  assert (Hp : Permutation (skipn (length V) b) (skipn (length V) b')).
  { apply (Permutation_app_inv_l (firstn (length V) b)). rewrite firstn_skipn, Hf, firstn_skipn. now rewrite Hb, Hb'. }
  rewrite <- (firstn_skipn (length V) b), <- (firstn_skipn (length V) b'), Hf. f_equal.
  assert (Ls : length (skipn (length V) b) <= 1) by (rewrite skipn_length; lia).
  destruct (skipn (length V) b) as [|x [|? ?]]; [now apply Permutation_nil in Hp|apply Permutation_length_1_inv in Hp; congruence|cbn in Ls; lia].
Qed.

(** ** Stale candidates *)
Definition agree (s s' : @fast T) : Prop :=
  fparts s = fparts s' /\ length (fcands s) = length (fcands s') /\ length (ffov s) = length (ffov s') /\
  forall j, j < length (fparts s) -> nth_error (fcands s) j = nth_error (fcands s') j.

Lemma nth_len : forall A (l l' : list A) j, length l = length l' -> nth_error l j = None -> nth_error l' j = None.
Proof. intros A l l' j E H. apply nth_error_None in H. apply nth_error_None. lia. Qed.

Lemma hyp_step_agree : forall tab vis da i h s s' t, agree s s' ->
  hyp_step correct inv near corr expo prn nZ pfa lim prior lock cntT chkT curT pruneT tab vis da i h s = Val t ->
  exists t', hyp_step correct inv near corr expo prn nZ pfa lim prior lock cntT chkT curT pruneT tab vis da i h s' = Val t' /\ agree t t' /\
    length (fparts t) = length (fparts s).
Proof.
  intros tab vis da i h s s' t (A1 & A2 & A3 & A4) E. unfold hyp_step in *.
  destruct (nth_error da h) as [d|]; [|discriminate]. cbn [of_option obind] in *. rewrite <- A1.
  set (j := slot_of i h (length (fparts s))) in *.
  destruct (nth_error (fparts s) j) as [p|] eqn:Ep; [|discriminate]. cbn [of_option obind] in *.
  assert (Hj := nth_error_lt _ _ _ _ Ep). rewrite <- (A4 j Hj).
  destruct (nth_error (fcands s) j) as [cs|] eqn:Ec; [|discriminate]. cbn [of_option obind] in *.
  destruct (nth_error (ffov s) j) as [fv|] eqn:Ef; [|discriminate]. cbn [of_option obind] in *.
  destruct (nth_error_ex _ (ffov s') j) as [fv' Ef']. { apply nth_error_lt in Ef. lia. } rewrite Ef'. cbn [of_option obind].
  destruct (hyp_update _ _ _ _ _ _ _ _ _ _ _ _ _ _ _ _ _ _ _ _) as [[[p' cs'] fov]| |]; try discriminate. cbn [obind] in *. injection E as <-.
  eexists. split; [reflexivity|]. split; [|cbn [fparts]; now rewrite upd_length]. split; [reflexivity|]. cbn [fparts fcands ffov]. rewrite !upd_length.
  split; [exact A2|]. split; [exact A3|]. intros j' Hj'. destruct (Nat.eq_dec j j') as [<-|Hn].
  - rewrite !nth_error_upd_eq; auto; [|apply nth_error_lt in Ec; exact Ec]. apply nth_error_lt in Ec. lia.
  - rewrite !nth_error_upd_neq by auto. now apply A4.
Qed.

Lemma split_agree : forall i nH p s s' t, nth_error (fparts s) i = Some p -> agree s s' -> split true i nH p s = Val t ->
  exists t', split true i nH p s' = Val t' /\ agree t t'.
Proof.
  intros i nH p s s' t Hi (A1 & A2 & A3 & A4) E. unfold split in *. assert (Hil := nth_error_lt _ _ _ _ Hi).
  rewrite <- A1, <- (A4 i Hil). destruct (nth_error (fcands s) i) as [c|] eqn:Ec; [|discriminate]. cbn [of_option obind] in *.
  set (p' := (fst p / QcN nH, snd p)%Qc) in *. set (parts := upd (fparts s) i p' ++ repeat p' (nH - 1)) in *.
  assert (Lp : length parts = length (fparts s) + (nH - 1)) by (unfold parts; now rewrite app_length, upd_length, repeat_length).
  assert (G : forall k cs cs' x, k <= nH - 1 -> length cs = length cs' -> (forall j, j < length (fparts s) -> nth_error cs j = nth_error cs' j) ->
    for_ k (fun h cs => if length parts - S h <? length cs then Val (upd cs (length parts - S h) c) else UB OutOfBounds) cs = Val x ->
    exists x', for_ k (fun h cs => if length parts - S h <? length cs then Val (upd cs (length parts - S h) c) else UB OutOfBounds) cs' = Val x' /\
      length x = length x' /\ length x = length cs /\ (forall j, j < length (fparts s) -> nth_error x j = nth_error x' j) /\
      forall j, length parts - k <= j < length parts -> nth_error x j = nth_error x' j).
  { induction k as [|k IH]; intros cs cs' x Hk L K E0.
    - rewrite for_O in *. injection E0 as <-. exists cs'. repeat (split; [auto|]). intros; lia.
    - rewrite for_S in *. destruct (for_ k _ cs) as [y| |] eqn:Ey; try discriminate. cbn [obind] in E0.
      destruct (IH cs cs' y ltac:(lia) L K Ey) as (y' & Ey' & L1 & L1' & K1 & K2). rewrite Ey'. cbn [obind]. rewrite <- L1.
      destruct (Nat.ltb_spec (length parts - S k) (length y)) as [Hlt|]; [|discriminate]. injection E0 as <-.
      eexists. split; [reflexivity|]. rewrite !upd_length. split; [auto|]. split; [auto|]. split.
      + intros j Hj. rewrite !nth_error_upd_neq by lia. now apply K1.
      + intros j Hj. destruct (Nat.eq_dec (length parts - S k) j) as [<-|Hn].
        * rewrite !nth_error_upd_eq by lia. reflexivity.
        * rewrite !nth_error_upd_neq by auto. apply K2. lia. }
  destruct (for_ (nH - 1) _ (fcands s)) as [x| |] eqn:Ex; try discriminate. cbn [obind] in E. injection E as <-.
  destruct (G _ _ _ _ (le_n _) A2 A4 Ex) as (x' & Ex' & L1 & L2 & K1 & K2). rewrite Ex'. cbn [obind].
  eexists. split; [reflexivity|]. split; [reflexivity|]. cbn [fparts fcands ffov]. split; [auto|]. split; [auto|].
  intros j Hj. destruct (Nat.lt_ge_cases j (length (fparts s))); [now apply K1|]. apply K2. lia.
Qed.

Lemma update_agree : forall i s s' t, agree s s' -> step cntT true i s = Val t -> exists t', step cntT true i s' = Val t' /\ agree t t'.
Proof.
  intros i s s' t A E. unfold updateMap in *. rewrite <- (proj1 A).
  destruct (nth_error (fparts s) i) as [p|] eqn:Ep; [|discriminate]. cbn [of_option obind] in *.
  destruct (reduce _ _ _) as [m| |]; try discriminate. cbn [obind] in *.
  destruct (getReduced m) as [[[[[[Cr nr] f] fs] imap] jmap]|]; try discriminate.
  destruct (if nr =? 0 then Val (0, [f]) else _) as [[nH da]| |]; try discriminate. cbn [obind] in *.
  destruct (nH =? 0); [discriminate|].
  destruct (if 1 <? nH then split true i nH p s else Val s) as [s1| |] eqn:Es1; try discriminate. cbn [obind] in E.
  assert (S1 : exists s1', (if 1 <? nH then split true i nH p s' else Val s') = Val s1' /\ agree s1 s1').
  { destruct (1 <? nH); [eapply split_agree; eauto|]. injection Es1 as <-. exists s'. auto. }
  destruct S1 as (s1' & Es1' & A1). rewrite Es1'. cbn [obind]. clear - A1 E. revert t E. induction nH as [|k IH]; intros t E.
  - rewrite for_O in *. injection E as <-. eauto.
  - rewrite for_S in *. destruct (for_ k _ s1) as [y| |] eqn:Ey; try discriminate. cbn [obind] in E.
    destruct (IH y eq_refl) as (y' & Ey' & A2). rewrite Ey'. cbn [obind]. destruct (hyp_step_agree _ _ _ _ _ _ _ _ A2 E) as (t' & Et & At & _). eauto.
Qed.

(** ** All particles *)
Notation ranked_ := (ranked pdet logl nZ lim maxDiff maxN).
Notation branches_ := (branches pdet logl correct inv expo prn nZ pfa lim prior lock pruneT).

Lemma nth_error_rev : forall A (l : list A) j, j < length l -> nth_error (rev l) j = nth_error l (length l - S j).
Proof.
  intros A. induction l as [|x l IH]; intros j Hj; cbn [length] in *; [lia|]. cbn [rev].
  destruct (Nat.lt_ge_cases j (length l)) as [H|H].
  - rewrite nth_error_app1 by (rewrite rev_length; lia). rewrite IH by lia. replace (S (length l) - S j) with (S (length l - S j)) by lia. reflexivity.
  - assert (j = length l) by lia. subst j. rewrite nth_error_app2, rev_length, !Nat.sub_diag by (rewrite rev_length; lia). reflexivity.
Qed.
Lemma sorted_nth : forall A (R : A -> A -> Prop) (l : list A),
  (forall h h' a b, h < h' -> nth_error l h = Some a -> nth_error l h' = Some b -> R a b) -> StronglySorted R l.
Proof.
  intros A R. induction l as [|x l IH]; intros H; constructor.
  - apply IH. intros h h' a b Hl Ha Hb. apply (H (S h) (S h')); auto; lia.
  - rewrite Forall_forall. intros y Hy. apply In_nth_error in Hy. destruct Hy as [k Hk]. apply (H 0 (S k)); auto; lia.
Qed.

Notation usable := (usable pdet logl nZ lim big).

Section Run.
Hypothesis Hpick : queue_contract pick.
Hypothesis Hpfa : (0 < pfa)%Qc.
Hypothesis Hprior : (0 < prior)%Qc.
Hypothesis Hprior1 : (prior < 1)%Qc.
Hypothesis HmaxN : 0 < maxN.
Hypothesis HmaxD : (0 < maxDiff)%Z.
Variable hi : Z.
Hypothesis Hlh : (lim <= hi)%Z.

Lemma update_list : forall res i s w M L, nth_error (fparts s) i = Some (w, M) -> usable hi M -> clean L s -> length (fparts s) + maxN - 1 <= L ->
  exists s' a0 l, step 1 res i s = Val s' /\ clean L s' /\ ranked_ M (a0 :: l) /\
    fparts s' = upd (fparts s) i (upd_ (w / QcN (length (a0 :: l)))%Qc M a0) ++ rev (tl (branches_ w M (a0 :: l))).
Proof using Hpick Hpfa Hprior Hprior1 HmaxN HmaxD Hlh.
  intros res i s w M L Hi (U1 & U2 & U3 & U4) Hc HL.
  destruct (update_ok pdet logl correct inv near corr expo prn pick big nZ pfa lim maxDiff maxN prior lock chkT curT pruneT
    res i s w M hi L Hpick Hi Hpfa Hprior Hprior1 U1 HmaxN HmaxD U2 Hlh U3 Hc HL U4) as (s' & l & E & Hc' & Hlen & Lp & Hother & Hslots & Hbest & Hsort & _).
  destruct l as [|a0 l]; [cbn in Hlen; lia|]. exists s', a0, l. split; [exact E|]. split; [exact Hc'|]. split.
  - split; [exact Hlen|]. split; [|split].
    + intros a Ha. apply In_nth_error in Ha. destruct Ha as [h Hh]. apply (Hslots h a Hh).
    + intros a Ha. cbn in Ha. injection Ha as <-. destruct (Hbest a0 eq_refl) as [B1 B2]. split; [exact B1|].
      intros b Hb. apply In_nth_error in Hb. destruct Hb as [h Hh]. apply (B2 h b Hh).
    + apply sorted_nth. intros h h' a b Hl Ha Hb. apply (Hsort h h' a b Hl Ha Hb).
  - assert (Hil := nth_error_lt _ _ _ _ Hi). unfold branches. cbn [map tl]. set (w' := (w / QcN (length (a0 :: l)))%Qc) in *.
    cbn [length] in Lp. apply list_ext. intros j. destruct (Nat.lt_ge_cases j (length (fparts s))) as [Hj|Hj].
    + rewrite nth_error_app1 by now rewrite upd_length. destruct (Nat.eq_dec i j) as [<-|Hn].
      * rewrite nth_error_upd_eq by exact Hj. apply (Hslots 0 a0 eq_refl).
      * rewrite nth_error_upd_neq by exact Hn. apply Hother; auto.
    + rewrite nth_error_app2, upd_length by (rewrite upd_length; exact Hj).
      destruct (Nat.lt_ge_cases j (length (fparts s) + length l)) as [Hj'|Hj'].
      * assert (Hk : length (fparts s) + length l - 1 - j < length l) by lia.
        destruct (nth_error_ex _ l _ Hk) as [a Ha]. destruct (Hslots (S (length (fparts s) + length l - 1 - j)) a Ha) as [_ Ea].
        cbn [Nat.eqb] in Ea. replace (length (fparts s') - S (length (fparts s) + length l - 1 - j)) with j in Ea by lia. rewrite Ea.
        rewrite nth_error_rev by (rewrite map_length; lia). rewrite map_length.
        replace (length l - S (j - length (fparts s))) with (length (fparts s) + length l - 1 - j) by lia.
        rewrite nth_error_map, Ha. reflexivity.
      * rewrite !(proj2 (nth_error_None _ _)); [reflexivity|rewrite rev_length, map_length; lia|lia].
Qed.

Lemma update_all : forall res s, 0 < nZ -> (forall w M, In (w, M) (fparts s) -> usable hi M) ->
  length (fcands s) = length (ffov s) -> Forall (eq []) (fcands s) ->
  exists s' ls, steps 1 res s = Val s' /\ Forall2 (fun p l => ranked_ (snd p) l) (fparts s) ls /\
    Permutation (fparts s') (concat (map (fun pl => branches_ (fst (fst pl)) (snd (fst pl)) (snd pl)) (combine (fparts s) ls))) /\
    (forall i w M l, nth_error (fparts s) i = Some (w, M) -> nth_error ls i = Some l -> nth_error (fparts s') i = hd_error (branches_ w M l)) /\
    Forall (eq []) (fcands s').
Proof using Hpick Hpfa Hprior Hprior1 HmaxN HmaxD Hlh.
  intros res s HnZ Hus Hlen Hnil. unfold update_maps. destruct (Nat.eqb_spec nZ 0); [lia|].
  set (P := fparts s) in *. set (N := length P). set (s1 := FA P (grow (N * maxN) [] (fcands s)) (grow (N * maxN) 0 (ffov s))).
  set (L := length (fcands s1)).
  assert (HL : N * maxN <= L). { unfold L, s1, grow. cbn [fcands]. rewrite app_length, repeat_length. lia. }
  assert (Hc1 : clean L s1).
  { split; [reflexivity|]. split; [unfold L, s1, grow; cbn [fcands ffov]; rewrite !app_length, !repeat_length, Hlen; reflexivity|].
    unfold s1, grow. cbn [fcands]. apply Forall_app. split; [exact Hnil|]. apply Forall_forall. intros x Hx. now apply repeat_spec in Hx. }
  set (bs := fun (pl : (Qc * list (Qc * T)) * list (nat -> option nat)) => branches_ (fst (fst pl)) (snd (fst pl)) (snd pl)).
  destruct (for_inv (fun i t => clean L t /\ exists ls heads tails, length ls = i /\ length heads = i /\ length tails <= i * (maxN - 1) /\
      Forall2 (fun p l => ranked_ (snd p) l) (firstn i P) ls /\ fparts t = heads ++ skipn i P ++ tails /\
      Permutation (heads ++ tails) (concat (map bs (combine P ls))) /\
      (forall j p l, nth_error P j = Some p -> nth_error ls j = Some l -> nth_error heads j = hd_error (bs (p, l))))
    (step 1 res) N s1) as (t & Et & Ct & ls & heads & tails & L1 & L2 & L3 & F & Ep & Pm & Hd).
  - split; [exact Hc1|]. exists [], [], []. cbn [firstn skipn length app]. split; [reflexivity|]. split; [reflexivity|]. split; [lia|]. split; [constructor|].
    split; [unfold s1; cbn [fparts]; now rewrite app_nil_r|]. split; [destruct P; constructor|]. intros j p l _ K. destruct j; discriminate.
  - intros i t Hi [Ct (ls & heads & tails & L1 & L2 & L3 & F & Ep & Pm & Hd)].
    destruct (nth_error_ex _ P i Hi) as [[w M] Hp].
    assert (Esk : skipn i P = (w, M) :: skipn (S i) P).
    { clear - Hp. revert i Hp. induction P as [|x l IH]; intros [|i] Hp; try discriminate; cbn in *; [congruence|]. rewrite <- (IH i Hp). reflexivity. }
    assert (Hti : nth_error (fparts t) i = Some (w, M)).
    { rewrite Ep, nth_error_app2, L2, Nat.sub_diag, Esk by lia. reflexivity. }
    assert (Ltp : length (fparts t) = N + length tails).
    { rewrite Ep, !app_length, skipn_length, L2. fold N. lia. }
    destruct (update_list res i t w M L Hti) as (t' & a0 & l & E' & C' & R' & Ep').
    { apply (Hus w M). now apply nth_error_In in Hp. } { exact Ct. }
    { rewrite Ltp. assert (K : i * (maxN - 1) + (maxN - 1) <= N * (maxN - 1)). { replace (i * (maxN - 1) + (maxN - 1)) with (S i * (maxN - 1)) by lia. apply Nat.mul_le_mono_r. lia. }
      assert (N * maxN = N * (maxN - 1) + N). { rewrite <- (Nat.mul_1_r N) at 3. rewrite <- Nat.mul_add_distr_l. f_equal. lia. } lia. }
    exists t'. split; [exact E'|]. split; [exact C'|].
    set (p' := upd_ (w / QcN (length (a0 :: l)))%Qc M a0) in *. set (tl' := tl (branches_ w M (a0 :: l))) in *.
    assert (Eb : bs ((w, M), a0 :: l) = p' :: tl') by reflexivity.
    assert (Ltl : length tl' <= maxN - 1).
    { unfold tl', branches. cbn [map tl]. rewrite map_length. destruct R' as [R' _]. cbn in R'. lia. }
    assert (LsP : length ls = length (firstn i P)). { rewrite firstn_length. fold N. lia. }
    exists (ls ++ [a0 :: l]), (heads ++ [p']), (tails ++ rev tl').
    split; [rewrite app_length; cbn; lia|]. split; [rewrite app_length; cbn; lia|]. split; [rewrite app_length, rev_length; lia|].
    assert (EF : firstn (S i) P = firstn i P ++ [(w, M)]).
    { clear - Hp. revert i Hp. induction P as [|x q IH]; intros [|i] Hp; try discriminate; cbn in *; [congruence|]. rewrite <- (IH i Hp). reflexivity. }
    split; [rewrite EF; apply Forall2_app; [exact F|]; constructor; [exact R'|constructor]|].
    split; [|split].
    + rewrite Ep', Ep, Esk. generalize (skipn (S i) P) as rest. rewrite <- L2. clear. intros rest. induction heads as [|x h IH]; cbn [app length upd]; [now rewrite <- app_assoc|]. f_equal. exact IH.
    + assert (Ecomb : combine P (ls ++ [a0 :: l]) = combine P ls ++ [((w, M), a0 :: l)]).
      { clearbody P. clear - Hp L1. revert i P Hp L1. induction ls as [|x ls IH]; intros i P Hp L1; subst i.
        - destruct P as [|q P]; [discriminate|]. cbn in *. injection Hp as ->. destruct P; reflexivity.
        - destruct P as [|q P]; [discriminate|]. cbn in *. f_equal. apply (IH (length ls)); auto. }
      rewrite Ecomb, map_app, concat_app. cbn [map concat]. rewrite app_nil_r, Eb. rewrite <- Pm.
      rewrite <- !app_assoc. apply Permutation_app_head. cbn [app]. rewrite <- (Permutation_rev tl'). apply Permutation_middle.
    + intros j p q Hj Hq. destruct (Nat.lt_ge_cases j i) as [Hji|Hji].
      * rewrite nth_error_app1 in Hq by lia. rewrite nth_error_app1 by lia. now apply Hd.
      * assert (j = i). { apply nth_error_lt in Hq. rewrite app_length in Hq. cbn in Hq. lia. } subst j.
        rewrite nth_error_app2, L1, Nat.sub_diag in Hq by lia. cbn in Hq. injection Hq as <-.
        rewrite nth_error_app2, L2, Nat.sub_diag by lia. assert (p = (w, M)) by congruence. subst p. rewrite Eb. reflexivity.
  - exists t, ls. split; [exact Et|]. split; [|split; [|split]].
    + now rewrite firstn_all2 in F by (fold N; lia).
    + rewrite Ep. rewrite skipn_all2 by (fold N; lia). exact Pm.
    + intros i w M l Hi Hl. rewrite Ep, nth_error_app1 by (apply nth_error_lt in Hl; lia). exact (Hd i (w, M) l Hi Hl).
    + apply Ct.
Qed.
End Run.

(** ** Distinct hypotheses in one update *)
Lemma update_distinct : queue_contract pick -> (0 < pfa)%Qc -> (0 < prior)%Qc -> (prior < 1)%Qc -> 0 < maxN -> (0 < maxDiff)%Z ->
  forall hi res i s w M L, (lim <= hi)%Z -> nth_error (fparts s) i = Some (w, M) -> usable hi M ->
  length (fcands s) = L -> length (ffov s) = L -> Forall (eq []) (fcands s) -> length (fparts s) + maxN - 1 <= L ->
  (forall w t z, In (w, t) M -> in_sight pdet t = true -> z < nZ -> (lim < loglik logl lim t z)%Z) ->
  seen_count pdet M <= S nZ -> nZ <= S (seen_count pdet M) ->
  exists s' l, step 1 res i s = Val s' /\ ranked_ M l /\
    (forall h a, nth_error l h = Some a ->
       nth_error (fparts s') (if h =? 0 then i else length (fparts s') - h) = Some (upd_ (w / QcN (length l))%Qc M a)) /\
    forall h h' a a', h < h' -> nth_error l h = Some a -> nth_error l h' = Some a' -> exists k, a k <> a' k.
Proof.
  intros Hpick Hpfa Hprior Hprior1 HmaxN HmaxD hi res i s w M L Hlh Hi (U1 & U2 & U3 & U4) C1 C2 C3 HL Hall K1 K2.
  destruct (update_ok pdet logl correct inv near corr expo prn pick big nZ pfa lim maxDiff maxN prior lock chkT curT pruneT
    res i s w M hi L Hpick Hi Hpfa Hprior Hprior1 U1 HmaxN HmaxD U2 Hlh U3 (conj C1 (conj C2 C3)) HL U4) as (s' & l & E & Hc' & Hlen & Lp & Hother & Hslots & Hbest & Hsort & Hdist).
  exists s', l. split; [exact E|]. split; [|split].
  - split; [exact Hlen|]. split; [|split].
    + intros a Ha. apply In_nth_error in Ha. destruct Ha as [h Hh]. apply (Hslots h a Hh).
    + intros a Ha. assert (Ha' : nth_error l 0 = Some a) by (destruct l; auto). destruct (Hbest a Ha') as [B1 B2]. split; [exact B1|].
      intros b Hb. apply In_nth_error in Hb. destruct Hb as [h Hh]. apply (B2 h b Hh).
    + apply sorted_nth. intros h h' a b Hl Ha Hb. apply (Hsort h h' a b Hl Ha Hb).
  - intros h a Ha. apply (Hslots h a Ha).
  - intros h h' a a' Hlt Ha Ha'. destruct (Hdist h h' a a' Hlt Ha Ha') as (b & b' & A1 & A2 & A3 & A4 & A5).
    exact (assoc_distinct M Hall K1 K2 a a' b b' A1 A2 A3 A4 A5).
Qed.

Lemma update_one : queue_contract pick -> (0 < pfa)%Qc -> (0 < prior)%Qc -> (prior < 1)%Qc -> 0 < maxN -> (0 < maxDiff)%Z ->
  forall hi res i s w M L, (lim <= hi)%Z -> nth_error (fparts s) i = Some (w, M) -> usable hi M ->
  length (fcands s) = L -> length (ffov s) = L -> Forall (eq []) (fcands s) -> length (fparts s) + maxN - 1 <= L ->
  exists s' a l, step 1 res i s = Val s' /\ ranked_ M (a :: l) /\
    fparts s' = upd (fparts s) i (upd_ (w / QcN (length (a :: l)))%Qc M a) ++ rev (tl (branches_ w M (a :: l))).
Proof.
  intros Hpick Hpfa Hprior Hprior1 HmaxN HmaxD hi res i s w M L Hlh Hi U C1 C2 C3 HL.
  destruct (update_list Hpick Hpfa Hprior Hprior1 HmaxN HmaxD hi Hlh res i s w M L Hi U (conj C1 (conj C2 C3)) HL) as (s' & a & l & E & _ & R & P).
  exists s', a, l. auto.
Qed.

Lemma stale_candidates : forall i s s' t,
  fparts s = fparts s' -> length (fcands s) = length (fcands s') -> length (ffov s) = length (ffov s') ->
  (forall j, j < length (fparts s) -> nth_error (fcands s) j = nth_error (fcands s') j) ->
  step cntT true i s = Val t -> exists t', step cntT true i s' = Val t' /\ fparts t = fparts t' /\
    forall j, j < length (fparts t) -> nth_error (fcands t) j = nth_error (fcands t') j.
Proof.
  intros i s s' t A1 A2 A3 A4 E. destruct (update_agree i s s' t (conj A1 (conj A2 (conj A3 A4))) E) as (t' & E' & B1 & B2 & B3 & B4).
  exists t'. auto.
Qed.

(** ** Branches start with the candidates of their parent *)
Notation hyp_ := (hyp_update correct inv near corr expo prn nZ pfa lim prior lock cntT chkT curT pruneT).

Lemma split_own : forall i nH w (M : list (Qc * T)) own s t, nth_error (fparts s) i = Some (w, M) -> nth_error (fcands s) i = Some own -> 0 < nH ->
  (if 1 <? nH then split true i nH (w, M) s else Val s) = Val t ->
  length (fparts t) = length (fparts s) + nH - 1 /\
  forall h, h < nH -> nth_error (fparts t) (slot_of i h (length (fparts t))) = Some ((w / QcN nH)%Qc, M) /\
    nth_error (fcands t) (slot_of i h (length (fparts t))) = Some own.
Proof.
  intros i nH w M own s t Hi Ho Hn E. assert (Hil := nth_error_lt _ _ _ _ Hi). destruct (Nat.ltb_spec 1 nH) as [H1|H1].
  - unfold split in E. rewrite Ho in E. cbn [of_option obind fst snd] in E.
    set (p' := ((w / QcN nH)%Qc, M)) in *. set (parts := upd (fparts s) i p' ++ repeat p' (nH - 1)) in *.
    assert (Lp : length parts = length (fparts s) + nH - 1) by (unfold parts; rewrite app_length, upd_length, repeat_length; lia).
    destruct (for_ (nH - 1) _ (fcands s)) as [x| |] eqn:Ex; try discriminate. cbn [obind] in E. injection E as <-. cbn [fparts fcands].
    split; [exact Lp|].
    assert (G : forall k y, k <= nH - 1 -> for_ k (fun h cs => if length parts - S h <? length cs then Val (upd cs (length parts - S h) own) else UB OutOfBounds) (fcands s) = Val y ->
      nth_error y i = Some own /\ forall h, h < k -> nth_error y (length parts - S h) = Some own).
    { induction k as [|k IH]; intros y Hk Ey.
      - rewrite for_O in Ey. injection Ey as <-. split; [exact Ho|intros; lia].
      - rewrite for_S in Ey. destruct (for_ k _ (fcands s)) as [z| |] eqn:Ez; try discriminate. cbn [obind] in Ey.
        destruct (Nat.ltb_spec (length parts - S k) (length z)) as [Hl|]; [|discriminate]. injection Ey as <-.
        destruct (IH z ltac:(lia) eq_refl) as [I1 I2]. split; [rewrite nth_error_upd_neq by lia; exact I1|].
        intros h Hh. destruct (Nat.eq_dec h k) as [->|Hne]; [now rewrite nth_error_upd_eq by lia|].
        rewrite nth_error_upd_neq by lia. apply I2. lia. }
    destruct (G _ _ (le_n _) Ex) as [G1 G2]. intros h Hh. unfold slot_of. destruct (Nat.eqb_spec h 0) as [->|Hh0].
    + split; [|exact G1]. unfold parts. rewrite nth_error_app1 by now rewrite upd_length. now apply nth_error_upd_eq.
    + split.
      * unfold parts. rewrite nth_error_app2, upd_length by (rewrite upd_length; fold parts; lia). apply nth_error_repeat. fold parts. lia.
      * replace (length parts - h) with (length parts - S (h - 1)) by lia. apply G2. lia.
  - assert (nH = 1) by lia. subst nH. injection E as <-. split; [lia|]. intros h Hh. assert (h = 0) by lia. subst h. cbn [slot_of Nat.eqb].
    split; [|exact Ho]. rewrite Hi. do 2 f_equal. change (QcN 1) with 1%Qc. field. discriminate.
Qed.

Lemma update_inherit : forall i s t w M own, nth_error (fparts s) i = Some (w, M) -> nth_error (fcands s) i = Some own ->
  step cntT true i s = Val t -> exists nH tab das, 0 < nH /\ length (fparts t) = length (fparts s) + nH - 1 /\
    forall h, h < nH -> exists d p' cs' fov, nth_error das h = Some d /\
      hyp_ tab (visible pdet 0 M) d ((w / QcN nH)%Qc, M) own = Val (p', cs', fov) /\
      nth_error (fparts t) (if h =? 0 then i else length (fparts t) - h) = Some p' /\
      nth_error (fcands t) (if h =? 0 then i else length (fparts t) - h) = Some cs'.
Proof.
  intros i s t w M own Hi Ho E. unfold updateMap in E. rewrite Hi in E. cbn [of_option obind snd] in E.
  destruct (reduce _ _ _) as [m| |]; try discriminate. cbn [obind] in *.
  destruct (getReduced m) as [[[[[[Cr nr] f] fs] imap] jmap]|]; try discriminate.
  destruct (if nr =? 0 then Val (0, [f]) else _) as [[nH da]| |]; try discriminate. cbn [obind] in *.
  destruct (Nat.eqb_spec nH 0) as [|Hn]; [discriminate|].
  destruct (if 1 <? nH then split true i nH (w, M) s else Val s) as [s1| |] eqn:Es1; try discriminate. cbn [obind] in E.
  destruct (split_own i nH w M own s s1 Hi Ho ltac:(lia) Es1) as [L1 Hs1].
  assert (Hil := nth_error_lt _ _ _ _ Hi).
  exists nH, (cC m), da. split; [lia|].
  assert (G : forall k y, k <= nH -> for_ k (hyp_step correct inv near corr expo prn nZ pfa lim prior lock cntT chkT curT pruneT (cC m) (visible pdet 0 M) da i) s1 = Val y ->
    length (fparts y) = length (fparts s1) /\
    (forall h, k <= h < nH -> nth_error (fparts y) (slot_of i h (length (fparts s1))) = Some ((w / QcN nH)%Qc, M) /\
       nth_error (fcands y) (slot_of i h (length (fparts s1))) = Some own) /\
    forall h, h < k -> exists d p' cs' fov, nth_error da h = Some d /\
      hyp_ (cC m) (visible pdet 0 M) d ((w / QcN nH)%Qc, M) own = Val (p', cs', fov) /\
      nth_error (fparts y) (slot_of i h (length (fparts s1))) = Some p' /\ nth_error (fcands y) (slot_of i h (length (fparts s1))) = Some cs').
  { induction k as [|k IH]; intros y Hk Ey.
    - rewrite for_O in Ey. injection Ey as <-. split; [reflexivity|]. split; [intros; apply Hs1; lia|intros; lia].
    - rewrite for_S in Ey. destruct (for_ k _ s1) as [z| |] eqn:Ez; try discriminate. cbn [obind] in Ey.
      destruct (IH z ltac:(lia) eq_refl) as (I1 & I2 & I3). unfold hyp_step in Ey. rewrite I1 in Ey.
      destruct (I2 k ltac:(lia)) as [J1 J2]. rewrite J1, J2 in Ey.
      destruct (nth_error da k) as [d|] eqn:Ed; [|discriminate]. cbn [of_option obind] in Ey.
      destruct (nth_error (ffov z) _) as [fv|]; [|discriminate]. cbn [of_option obind] in Ey.
      destruct (hyp_update _ _ _ _ _ _ _ _ _ _ _ _ _ _ _ _ _ _ _ _) as [[[p' cs'] fov]| |] eqn:Eh; try discriminate. cbn [obind] in Ey. injection Ey as <-.
      cbn [fparts fcands]. rewrite upd_length. split; [exact I1|].
      assert (Hinj : forall h, h < nH -> h <> k -> slot_of i k (length (fparts s1)) <> slot_of i h (length (fparts s1))).
      { intros h Hh Hne. unfold slot_of. destruct (Nat.eqb_spec k 0), (Nat.eqb_spec h 0); lia. }
      split.
      + intros h Hh. rewrite !nth_error_upd_neq by (apply Hinj; lia). apply I2. lia.
      + intros h Hh. destruct (Nat.eq_dec h k) as [->|Hne].
        * exists d, p', cs', fov. split; [exact Ed|]. split; [exact Eh|].
          rewrite !nth_error_upd_eq by (first [now apply nth_error_lt in J1|now apply nth_error_lt in J2]). auto.
        * rewrite !nth_error_upd_neq by (apply Hinj; lia). apply I3. lia. }
  destruct (G nH t (le_n _) E) as (G1 & _ & G3). split; [lia|]. intros h Hh. rewrite G1. exact (G3 h Hh).
Qed.
End Fast.
