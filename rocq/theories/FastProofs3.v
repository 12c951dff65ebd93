(** Proofs about FastSLAM::updateMap, part 3: assignments of the table and associations of the
    landmarks; settled pairs. *)
From Coq Require Import ZArith List Bool Arith QArith Qcanon Lia Permutation Sorted.
From Verif Require Import Base ListUtil QcLra Loop HungarianModel AssignSpec AssignLemmas ReduceModel ReduceSpec
  ReduceProofs ReduceProofs2 ReduceProofs3 ReduceProofs4
  MurtyModel MurtySpec MurtyProofs MurtyPick OspaSpec OspaProofs BirthModel FastModel FastSpec FastProofs FastProofs2.
Import ListNotations.
Local Open Scope nat_scope.

Lemma list_prod_nodup : forall A B (l : list A) (m : list B), NoDup l -> NoDup m -> NoDup (list_prod l m).
Proof.
  intros A B l m Hl Hm. induction l as [|x l IH]; [constructor|]. inversion Hl as [|? ? H1 H2]; subst. cbn [list_prod].
  assert (G : forall (p q : list (A * B)), NoDup p -> NoDup q -> (forall z, In z p -> ~ In z q) -> NoDup (p ++ q)).
  { clear. induction p as [|z p IH]; intros q Hp Hq H; [exact Hq|]. inversion Hp; subst. cbn. constructor.
    - rewrite in_app_iff. intros [K|K]; [auto|]. apply (H z); [now left|auto].
    - apply IH; auto. intros y Hy. apply H. now right. }
  apply G; [|now apply IH|].
  - apply FinFun.Injective_map_NoDup; [|exact Hm]. intros a b E. congruence.
  - intros [a b] Ha Hb. apply in_map_iff in Ha. destruct Ha as (y & E & _). injection E as -> ->.
    apply in_prod_iff in Hb. tauto.
Qed.

Lemma zsum_cons : forall x l, zsum (x :: l) = (x + zsum l)%Z.
Proof. reflexivity. Qed.
Lemma zsum_zero : forall A (f : A -> Z) l, (forall x, In x l -> f x = 0%Z) -> zsum (map f l) = 0%Z.
Proof.
  induction l as [|x l IH]; intros H; [reflexivity|]. cbn [map]. rewrite zsum_cons, IH, (H x); auto; [now left|].
  intros; apply H; now right.
Qed.
Lemma zsum_nonneg : forall A (f : A -> Z) l, (forall x, In x l -> (0 <= f x)%Z) -> (0 <= zsum (map f l))%Z.
Proof.
  induction l as [|x l IH]; intros H; [cbn; lia|]. cbn [map]. rewrite zsum_cons.
  assert (0 <= f x)%Z by (apply H; now left). assert (0 <= zsum (map f l))%Z by (apply IH; intros; apply H; now right). lia.
Qed.
Lemma zsum_shift : forall A (f : A -> Z) c l, zsum (map f l) = (Z.of_nat (length l) * c + zsum (map (fun x => f x - c)%Z l))%Z.
Proof. induction l as [|x l IH]; [reflexivity|]. cbn [map length]. rewrite !zsum_cons, IH, Nat2Z.inj_succ. lia. Qed.

Lemma map_nth_seq_error : forall A B (l : list A) (F : A -> B) d,
  map (fun m => match nth_error l m with Some v => F v | None => d end) (seq 0 (length l)) = map F l.
Proof.
  intros A B l F d. apply list_ext. intros i. rewrite !nth_error_map. destruct (nth_error l i) as [v|] eqn:Ei.
  - assert (Hi := nth_error_lt _ _ _ _ Ei). rewrite (nth_error_nth' (seq 0 (length l)) 0) by now rewrite seq_length.
    rewrite seq_nth by auto. cbn. now rewrite Ei.
  - apply nth_error_None in Ei. rewrite (proj2 (nth_error_None (seq 0 (length l)) i)) by now rewrite seq_length. reflexivity.
Qed.

Section Gain.
Context {T : Type}.
Variable pdet : T -> Qc * bool.
Variable logl : T -> option (nat -> Z).
Variable nZ : nat.
Variable lim : Z.
Variable M : list (Qc * T).
Notation V := (visible pdet 0 M).
Notation sight := (in_sight pdet).
Notation ll := (loglik logl lim).
Notation n := (Nat.max (length V) nZ).
Notation C0 := (table logl nZ lim V).
Notation D := (clamped n lim true C0).
Notation cons_ := (consistent pdet logl nZ lim M).
Notation gain_ := (gain logl lim M).

Lemma table_ge : forall x y, (lim <= C0 x y)%Z.
Proof. intros. unfold table. destruct (nth_error V x) as [[[? t] ?]|]; [|lia]. destruct (y <? nZ); [|lia]. destruct (logl t); lia. Qed.
Lemma D_table : forall x y, D x y = C0 x y.
Proof. intros. unfold clamped. destruct ((x <? n) && (y <? n)); auto. unfold clamp. assert (H := table_ge x y). lia. Qed.
Lemma table_row : forall x y, length V <= x -> C0 x y = lim.
Proof. intros x y H. unfold table. now rewrite (proj2 (nth_error_None V x)). Qed.
Lemma table_V : forall m k t pd z, nth_error V m = Some (k, t, pd) -> z < nZ -> C0 m z = Z.max lim (ll t z).
Proof. intros. eapply tab_val; eauto. Qed.

(** The association an assignment of the table stands for. *)
Definition assoc_of (a : list nat) : nat -> option nat := assoc pdet nZ lim M C0 (fun m => nth_error a m).

Lemma assoc_some : forall d k z, assoc pdet nZ lim M C0 d k = Some z ->
  exists m w t pd, nth_error V m = Some (k, t, pd) /\ nth_error M k = Some (w, t) /\ sight t = true /\
    d m = Some z /\ z < nZ /\ (lim < ll t z)%Z.
Proof.
  intros d k z H. unfold assoc in H. destruct (index_of k (idxs V)) as [m|] eqn:Em; [|discriminate].
  apply pass_some in H. destruct H as (Hd & Hz & Ht). apply index_of_some in Em. unfold idxs in Em.
  rewrite nth_error_map in Em. destruct (nth_error V m) as [[[k' t] pd]|] eqn:Ev; [|discriminate]. cbn in Em. injection Em as ->.
  destruct (vis_nth _ _ _ _ _ _ _ Ev) as (_ & [w Hw] & Hs & _). rewrite Nat.sub_0_r in Hw.
  exists m, w, t, pd. rewrite (table_V _ _ _ _ _ Ev Hz) in Ht. repeat (split; auto). lia.
Qed.

Lemma assoc_consistent : forall a, assignment n a -> cons_ (assoc_of a).
Proof.
  intros a Ha. split.
  - intros k z H. apply assoc_some in H. destruct H as (m & w & t & pd & H1 & H2 & H3 & H4 & H5 & H6). split; auto. exists w, t. auto.
  - intros k k' z H H'. apply assoc_some in H, H'. destruct H as (m & w & t & pd & H1 & _ & _ & H4 & _).
    destruct H' as (m' & w' & t' & pd' & H1' & _ & _ & H4' & _).
    assert (m = m'). { apply (proj1 (NoDup_nth_error a) (assignment_nodup _ _ Ha)); [now apply nth_error_lt in H4|congruence]. }
    subst m'. congruence.
Qed.

Lemma gain_vis : forall b, cons_ b -> gain_ b =
  zsum (map (fun v => match b (fst (fst v)) with Some z => (ll (snd (fst v)) z - lim)%Z | None => 0%Z end) V).
Proof.
  intros b Hb. rewrite (vis_sum pdet (fun k t => match b k with Some z => (ll t z - lim)%Z | None => 0%Z end)).
  unfold gain. rewrite total_isum. apply isum_ext. intros k [w t] Hk. cbn [snd Nat.add]. destruct (sight t) eqn:Es; auto.
  destruct (b k) as [z|] eqn:Ez; auto. destruct (proj1 Hb k z Ez) as (_ & w' & t' & Hk' & Hs & _). congruence.
Qed.

Lemma score_gain : forall a, assignment n a -> score D a = (Z.of_nat n * lim + gain_ (assoc_of a))%Z.
Proof.
  intros a Ha. assert (La := assignment_length _ _ Ha). rewrite (score_sum D n a La). rewrite (zsum_shift _ _ lim), seq_length. f_equal.
  assert (Eseq : seq 0 n = seq 0 (length V) ++ seq (length V) (n - length V)).
  { replace n with (length V + (n - length V)) at 1 by lia. now rewrite seq_app. }
  rewrite Eseq.
  rewrite map_app, zsum_app. rewrite (zsum_zero _ _ (seq (length V) (n - length V))).
  2: { intros x Hx. apply in_seq in Hx. rewrite D_table, table_row by lia. lia. }
  rewrite Z.add_0_r, (gain_vis _ (assoc_consistent a Ha)).
  rewrite <- (map_nth_seq_error _ _ V (fun v => match assoc_of a (fst (fst v)) with Some z => (ll (snd (fst v)) z - lim)%Z | None => 0%Z end) 0%Z).
  f_equal. apply map_ext_in. intros m Hm. apply in_seq in Hm. rewrite D_table.
  destruct (nth_error V m) as [[[k t] pd]|] eqn:Ev; [|apply nth_error_None in Ev; lia]. cbn [fst snd].
  unfold assoc_of, assoc. rewrite (V_idx _ _ _ _ _ _ Ev).
  assert (Em : nth_error a m = Some (nth m a 0)) by (apply nth_error_nth'; lia). rewrite Em. cbn [pass].
  destruct (Nat.ltb_spec (nth m a 0) nZ) as [Hz|Hz]; cbn [andb].
  - destruct (Z.ltb_spec lim (C0 m (nth m a 0))) as [Hl|Hl].
    + rewrite (table_V _ _ _ _ _ Ev Hz) in *. lia.
    + assert (Hg := table_ge m (nth m a 0)). lia.
  - rewrite (tab_out pdet logl nZ lim M C0 ltac:(auto)) by lia. lia.
Qed.

(** Every consistent association is at most as good as some assignment of the table. *)
Lemma gain_bound : forall b, cons_ b -> exists a, assignment n a /\ (Z.of_nat n * lim + gain_ b <= score D a)%Z.
Proof.
  intros b Hb.
  set (ps := flat_map (fun m => match nth_error V m with
     | Some (k, _, _) => match b k with Some z => [(m, z)] | None => [] end | None => [] end) (seq 0 (length V))).
  assert (Hps : forall m z, In (m, z) ps <-> exists k t pd, nth_error V m = Some (k, t, pd) /\ b k = Some z).
  { intros m z. unfold ps. rewrite in_flat_map. split.
    - intros (m' & _ & H). destruct (nth_error V m') as [[[k t] pd]|] eqn:Ev; [|destruct H].
      destruct (b k) as [z'|] eqn:Ez; [|destruct H]. destruct H as [E|[]]. injection E as -> ->. exists k, t, pd. auto.
    - intros (k & t & pd & Ev & Ez). exists m. split; [apply in_seq; apply nth_error_lt in Ev; lia|]. rewrite Ev, Ez. now left. }
  assert (Hm : matching n n ps).
  { assert (Hfst : NoDup (map fst ps)).
    { unfold ps. assert (G : forall j c, NoDup (map fst (flat_map (fun m => match nth_error V m with
     | Some (k, _, _) => match b k with Some z => [(m, z)] | None => [] end | None => [] end) (seq j c))) /\
       forall x, In x (map fst (flat_map (fun m => match nth_error V m with
     | Some (k, _, _) => match b k with Some z => [(m, z)] | None => [] end | None => [] end) (seq j c))) -> j <= x).
      { intros j c. revert j. induction c as [|c IH]; intros j; [split; [constructor|intros x []]|]. cbn [seq flat_map]. destruct (IH (S j)) as [I1 I2].
        destruct (nth_error V j) as [[[k t] pd]|]; [destruct (b k)|]; cbn [app map fst].
        + split; [constructor; [|exact I1]; intros H; apply I2 in H; lia|]. intros x [<-|H]; [lia|]. apply I2 in H. lia.
        + split; [exact I1|]. intros x H. apply I2 in H. lia.
        + split; [exact I1|]. intros x H. apply I2 in H. lia. }
      apply G. }
    split; [exact Hfst|split].
    - assert (G : forall q, (forall p, In p q -> In p ps) -> NoDup (map fst q) -> NoDup (map snd q)).
      { induction q as [|[m z] q IH]; intros Hq Hn; [constructor|]. cbn [map fst snd] in *. inversion Hn as [|? ? N1 N2]; subst.
        constructor; [|apply IH; auto; intros; apply Hq; now right]. intros Hin. apply in_map_iff in Hin. destruct Hin as ([m' z'] & E & Hin). cbn in E. subst z'.
        assert (A := Hq (m, z) (or_introl eq_refl)). assert (B := Hq (m', z) (or_intror Hin)). apply Hps in A, B.
        destruct A as (k & t & pd & Ev & Ez), B as (k' & t' & pd' & Ev' & Ez').
        assert (k = k') by (eapply (proj2 Hb); eauto). subst k'.
        apply V_idx in Ev, Ev'. assert (m = m') by congruence. subst m'. apply N1. apply in_map_iff. exists (m, z). auto. }
      apply G; auto.
    - intros m z H. apply Hps in H. destruct H as (k & t & pd & Ev & Ez). apply nth_error_lt in Ev.
      destruct (proj1 Hb k z Ez) as (Hz & _). lia. }
  destruct (extend n ps Hm) as (a & R & Ha & HP). exists a. split; [exact Ha|].
  assert (La := assignment_length _ _ Ha).
  assert (Es : forall (F : nat -> nat -> Z), zsum (map (fun x => F x (nth x a 0)) (seq 0 n)) = zsum (map (fun p => F (fst p) (snd p)) (combine (seq 0 n) a))).
  { intros F. rewrite <- La. clear. f_equal. apply list_ext. intros i. rewrite !nth_error_map.
    assert (G : forall (a : list nat) j i, nth_error (combine (seq j (length a)) a) i = option_map (pair (j + i)) (nth_error a i)).
    { clear. induction a as [|x a IH]; intros j [|i]; cbn; auto; [now rewrite Nat.add_0_r|]. rewrite IH. destruct (nth_error a i); cbn; auto. now rewrite Nat.add_succ_r. }
    rewrite G. destruct (nth_error a i) as [y|] eqn:Ey.
    - assert (Hi := nth_error_lt _ _ _ _ Ey). rewrite (nth_error_nth' (seq 0 (length a)) 0) by now rewrite seq_length. rewrite seq_nth by auto. cbn.
      f_equal. f_equal. now apply nth_error_nth.
    - apply nth_error_None in Ey. rewrite (proj2 (nth_error_None (seq 0 (length a)) i)) by now rewrite seq_length. reflexivity. }
  rewrite (score_sum D n a La), (zsum_shift _ _ lim), seq_length. rewrite (Es (fun x y => (D x y - lim)%Z)).
  rewrite (zsum_perm _ _ (Permutation_map _ HP)), map_app, zsum_app.
  assert (HR : (0 <= zsum (map (fun p => (D (fst p) (snd p) - lim)%Z) R))%Z).
  { apply zsum_nonneg. intros [x y] _. cbn. rewrite D_table. assert (H := table_ge x y). lia. }
  enough (gain_ b = zsum (map (fun p => (D (fst p) (snd p) - lim)%Z) ps)) by lia.
  rewrite (gain_vis b Hb).
  rewrite <- (map_nth_seq_error _ _ V (fun v => match b (fst (fst v)) with Some z => (ll (snd (fst v)) z - lim)%Z | None => 0%Z end) 0%Z).
  unfold ps. clear HR Es La Ha HP Hm Hps R a ps.
  induction (seq 0 (length V)) as [|m l IH]; [reflexivity|]. cbn [map flat_map]. rewrite map_app, zsum_app, zsum_cons, <- IH.
  f_equal. destruct (nth_error V m) as [[[k t] pd]|] eqn:Ev; [|reflexivity]. cbn [fst snd].
  destruct (b k) as [z|] eqn:Ez; [|reflexivity]. cbn [map zsum fold_right fst snd]. rewrite D_table.
  destruct (proj1 Hb k z Ez) as (Hz & w' & t' & Hk' & _ & Hl).
  destruct (vis_nth _ _ _ _ _ _ _ Ev) as (_ & [w Hw] & _ & _). rewrite Nat.sub_0_r in Hw. assert (t' = t) by congruence. subst t'.
  rewrite (table_V _ _ _ _ _ Ev Hz). lia.
Qed.

(** ** Settled pairs *)
Lemma cand_iff : forall k z, candidate_pair pdet logl nZ lim M k z = true <->
  exists m t pd, nth_error V m = Some (k, t, pd) /\ (lim < C0 m z)%Z.
Proof.
  intros k z. unfold candidate_pair. split.
  - intros H. destruct (nth_error M k) as [[w t]|] eqn:Ek; [|discriminate]. apply andb_true_iff in H. destruct H as [H Hl].
    apply andb_true_iff in H. destruct H as [Hs Hz]. apply Nat.ltb_lt in Hz. apply Z.ltb_lt in Hl.
    destruct (vis_in pdet M 0 k w t Ek Hs) as [m Hm]. exists m, t, (fst (pdet t)). split; [exact Hm|].
    rewrite (table_V _ _ _ _ _ Hm Hz). lia.
  - intros (m & t & pd & Hm & Hl). destruct (vis_nth _ _ _ _ _ _ _ Hm) as (_ & [w Hw] & Hs & _). rewrite Nat.sub_0_r in Hw. rewrite Hw, Hs. cbn [andb].
    destruct (Nat.ltb_spec z nZ) as [Hz|Hz].
    + rewrite (table_V _ _ _ _ _ Hm Hz) in Hl. apply Z.ltb_lt. lia.
    + rewrite (tab_out pdet logl nZ lim M C0 ltac:(auto)) in Hl by (try lia; apply nth_error_lt in Hm; lia). lia.
Qed.

Lemma cand_range : forall k z, candidate_pair pdet logl nZ lim M k z = true -> k < length M /\ z < nZ.
Proof.
  intros k z H. unfold candidate_pair in H. destruct (nth_error M k) as [[w t]|] eqn:Ek; [|discriminate]. apply nth_error_lt in Ek.
  apply andb_true_iff in H. destruct H as [H _]. apply andb_true_iff in H. destruct H as [_ Hz]. apply Nat.ltb_lt in Hz. auto.
Qed.

Lemma above_V : forall x y, (lim < C0 x y)%Z -> exists k t pd, nth_error V x = Some (k, t, pd).
Proof. intros x y H. unfold table in H. destruct (nth_error V x) as [[[k t] pd]|]; [eauto|lia]. Qed.

Lemma forced_alone : forall m k t pd z, nth_error V m = Some (k, t, pd) ->
  forced C0 n lim true m z <-> alone pdet logl nZ lim M (k, z) = true.
Proof.
  intros m k t pd z Hm. unfold forced, alone, beyond. cbn [fst snd]. rewrite !andb_true_iff, !forallb_forall. split.
  - intros (Hmn & Hz & Hb & Hrow & Hcol). split; [split|].
    + apply cand_iff. exists m, t, pd. auto.
    + intros z' Hz'. apply in_seq in Hz'. apply orb_true_iff. destruct (Nat.eqb_spec z' z); [now left|right].
      apply negb_true_iff. destruct (candidate_pair pdet logl nZ lim M k z') eqn:E; auto. exfalso.
      apply cand_iff in E. destruct E as (m' & t' & pd' & Hm' & Hl). assert (m' = m) by (apply V_idx in Hm, Hm'; congruence). subst m'.
      apply (Hrow z'); auto. lia.
    + intros k' Hk'. apply in_seq in Hk'. apply orb_true_iff. destruct (Nat.eqb_spec k' k); [now left|right].
      apply negb_true_iff. destruct (candidate_pair pdet logl nZ lim M k' z) eqn:E; auto. exfalso.
      apply cand_iff in E. destruct E as (m' & t' & pd' & Hm' & Hl). 
      apply (Hcol m'); [apply nth_error_lt in Hm'; lia| |auto]. intros ->. congruence.
  - intros ((Hc & Hrow) & Hcol). assert (Hr := cand_range _ _ Hc). apply cand_iff in Hc. destruct Hc as (m' & t' & pd' & Hm' & Hl).
    assert (m' = m) by (apply V_idx in Hm, Hm'; congruence). subst m'. assert (Hmv := nth_error_lt _ _ _ _ Hm).
    split; [lia|]. split; [lia|]. split; [exact Hl|]. split.
    + intros z' Hz' Hne Hl'. assert (K : candidate_pair pdet logl nZ lim M k z' = true) by (apply cand_iff; exists m, t, pd; auto).
      assert (R := cand_range _ _ K). specialize (Hrow z' ltac:(apply in_seq; lia)). rewrite K in Hrow. apply orb_true_iff in Hrow.
      destruct Hrow as [E|E]; [apply Nat.eqb_eq in E; congruence|discriminate].
    + intros x Hx Hne Hl'. destruct (above_V _ _ Hl') as (k' & t'' & pd'' & Ex).
      assert (K : candidate_pair pdet logl nZ lim M k' z = true) by (apply cand_iff; exists x, t'', pd''; auto).
      assert (R := cand_range _ _ K). specialize (Hcol k' ltac:(apply in_seq; lia)). rewrite K in Hcol. apply orb_true_iff in Hcol.
      destruct Hcol as [E|E]; [|discriminate]. apply Nat.eqb_eq in E. subst k'. apply V_idx in Hm, Ex. congruence.
Qed.

Lemma settled_in : forall k z, In (k, z) (settled pdet logl nZ lim M) <-> alone pdet logl nZ lim M (k, z) = true.
Proof.
  intros k z. unfold settled. rewrite filter_In. split; [tauto|]. intros H. split; [|exact H].
  unfold alone in H. cbn [fst snd] in H. apply andb_true_iff in H. destruct H as [H _]. apply andb_true_iff in H. destruct H as [H _].
  apply cand_range in H. apply in_prod; apply in_seq; lia.
Qed.

(** The rows left over by reduce. *)
Lemma reduced_size : forall s, reduce (cm_new C0 n) lim true = Val s ->
  nred s = (let u := n - length (settled pdet logl nZ lim M) in if u <=? 1 then 0 else u) /\ length (settled pdet logl nZ lim M) <= n.
Proof.
  intros s Hs. destruct (reduce_gen (cm_new C0 n) lim true (fresh_stale C0 n lim true))
    as (m & f & r & E & Hn & Hav & HD & Hf & Hr & Hil & Hjl & Hlen & Har & H1 & Hn1 & HCr).
  cbn [cn cm_new cC ired app] in *. assert (m = s) by congruence. subst m.
  assert (Hlen2 : length (filter (isnone f) (seq 0 n)) + length (pairs n f) = n).
  { assert (L := Permutation_length (pairs_rows n f)). rewrite app_length, map_length, seq_length in L. lia. }
  assert (Hpairs : length (pairs n f) = length (settled pdet logl nZ lim M)).
  { set (g := fun p : nat * nat => (match nth_error V (fst p) with Some (k, _, _) => k | None => 0 end, snd p)).
    rewrite <- (map_length g). apply Permutation_length. apply NoDup_Permutation.
    - assert (G : forall q, (forall p, In p q -> In p (pairs n f)) -> NoDup (map fst q) -> NoDup (map g q)).
      { induction q as [|[x y] q IH]; intros Hq Hnd; [constructor|]. cbn [map fst] in *. inversion Hnd as [|? ? N1 N2]; subst.
        constructor; [|apply IH; auto; intros; apply Hq; now right]. intros Hin. apply in_map_iff in Hin. destruct Hin as ([x' y'] & Eg & Hin).
        assert (A := Hq (x, y) (or_introl eq_refl)). assert (B := Hq (x', y') (or_intror Hin)).
        apply pairs_in in A, B. destruct A as [A1 A2], B as [B1 B2]. apply Hf in A2, B2; auto.
        destruct A2 as (_ & _ & A2 & _), B2 as (_ & _ & B2 & _). cbn in A2, B2. apply above_V in A2, B2.
        destruct A2 as (k & t & pd & Ev), B2 as (k' & t' & pd' & Ev'). unfold g in Eg. cbn [fst snd] in Eg. rewrite Ev, Ev' in Eg.
        injection Eg as -> ->. apply V_idx in Ev, Ev'. assert (x = x') by congruence. subst x'. apply N1. apply in_map_iff. exists (x, y). auto. }
      apply G; [auto|]. rewrite pairs_fst. apply NoDup_filter, seq_NoDup.
    - apply NoDup_filter, list_prod_nodup; apply seq_NoDup.
    - intros [k z]. rewrite settled_in. split.
      + intros H. apply in_map_iff in H. destruct H as ([x y] & Eg & Hin). apply pairs_in in Hin. destruct Hin as [Hx Hin]. apply Hf in Hin; auto.
        assert (K := Hin). destruct K as (_ & _ & K & _). cbn in K. apply above_V in K. destruct K as (k' & t & pd & Ev).
        unfold g in Eg. cbn [fst snd] in Eg. rewrite Ev in Eg. injection Eg as -> ->. now apply (forced_alone x k t pd z Ev).
      + intros H. assert (K := H). unfold alone in K. cbn [fst snd] in K. apply andb_true_iff in K. destruct K as [K _]. apply andb_true_iff in K.
        destruct K as [K _]. apply cand_iff in K. destruct K as (m & t & pd & Ev & _). apply (forced_alone m k t pd z Ev) in H.
        apply in_map_iff. exists (m, z). unfold g. cbn [fst snd]. rewrite Ev. split; [reflexivity|]. apply pairs_in.
        assert (Hm : m < n) by (apply nth_error_lt in Ev; lia). split; [exact Hm|]. now apply Hf. }
  rewrite Hpairs in Hlen2. split; [|lia]. cbn zeta. rewrite Hil in H1, Hn1.
  replace (n - length (settled pdet logl nZ lim M)) with (length (filter (isnone f) (seq 0 n))) by lia.
  destruct (Nat.eq_dec (length (filter (isnone f) (seq 0 n))) 1) as [E1|E1].
  - rewrite E1. cbn. now apply H1.
  - destruct (Hn1 E1) as [-> _]. destruct (Nat.leb_spec (length (filter (isnone f) (seq 0 n))) 1); lia.
Qed.
End Gain.
