(** Proofs about FastSLAM::updateMap, part 1: landmarks in range and the update of one
    hypothesis. *)
From Coq Require Import ZArith List Bool Arith QArith Qcanon Lia Permutation.
From Verif Require Import Base ListUtil QcLra Loop HungarianModel AssignSpec AssignLemmas ReduceModel MurtyModel
  MurtyProofs BirthModel FastModel FastSpec.
Import ListNotations.
Local Open Scope nat_scope.

Lemma indexed_nth : forall A B (f : nat -> A -> B) l k,
  nth_error (indexed f l) k = option_map (f k) (nth_error l k).
Proof.
  intros A B f l k. unfold indexed. rewrite nth_error_map.
  assert (G : forall (l : list A) j k, nth_error (combine (seq j (length l)) l) k = option_map (pair (j + k)) (nth_error l k)).
  { clear. induction l as [|x l IH]; intros j [|k]; cbn; auto.
    - now rewrite Nat.add_0_r.
    - rewrite IH. destruct (nth_error l k); cbn; auto. now rewrite Nat.add_succ_r. }
  rewrite G. destruct (nth_error l k); reflexivity.
Qed.

Lemma indexed_length : forall A B (f : nat -> A -> B) l, length (indexed f l) = length l.
Proof. intros. unfold indexed. rewrite map_length, combine_length, seq_length. apply Nat.min_id. Qed.

(** Sums over a list by index. *)
Definition isum {A : Type} (f : nat -> A -> Z) : nat -> list A -> Z :=
  fix go (j : nat) (l : list A) : Z := match l with [] => 0%Z | x :: r => (f j x + go (S j) r)%Z end.
Lemma total_isum : forall A (f : nat -> A -> Z) l, total_of f l = isum f 0 l.
Proof.
  intros A f l. unfold total_of, indexed.
  assert (G : forall j, fold_right Z.add 0%Z (map (fun p => f (fst p) (snd p)) (combine (seq j (length l)) l)) = isum f j l).
  { induction l as [|x l IH]; intros j; [reflexivity|]. cbn [length seq combine map fold_right fst snd isum]. now rewrite IH. }
  apply G.
Qed.
Lemma isum_ext : forall A (f g : nat -> A -> Z) l j, (forall k x, nth_error l k = Some x -> f (j + k) x = g (j + k) x) ->
  isum f j l = isum g j l.
Proof.
  intros A f g l. induction l as [|x l IH]; intros j H; [reflexivity|]. cbn [isum].
  rewrite (IH (S j)).
  - f_equal. specialize (H 0 x eq_refl). now rewrite Nat.add_0_r in H.
  - intros k y Hy. specialize (H (S k) y Hy). now rewrite Nat.add_succ_r in H.
Qed.

Lemma qc_eqb : forall a b, Qc_eq_bool a b = true <-> a = b.
Proof.
  intros a b. split; [apply Qc_eq_bool_correct|]. intros ->. unfold Qc_eq_bool. destruct (Qc_eq_dec b b); congruence.
Qed.
Lemma qc_eqb_false : forall a b, a <> b -> Qc_eq_bool a b = false.
Proof. intros a b H. destruct (Qc_eq_bool a b) eqn:E; auto. now apply qc_eqb in E. Qed.

Section Fast.
Context {T : Type}.
Variable pdet : T -> Qc * bool.
Variable logl : T -> option (nat -> Z).
Variable correct : nat -> T -> option T.
Variable inv : nat -> T.
Variable near : T -> nat -> bool.
Variable corr : T -> nat -> T.
Variable expo : Z -> Qc.
Variable prn : list (Qc * T) -> list (Qc * T).
Variable nZ : nat.
Variable pfa : Qc.
Variable lim : Z.
Variables prior lock : Qc.
Variables chkT curT pruneT : nat.

Notation vis := (visible pdet).
Notation sight := (in_sight pdet).
Notation ll := (loglik logl lim).

(** ** Landmarks in range *)
Lemma vis_cons : forall k w t r, vis k ((w, t) :: r) =
  if sight t then (k, t, fst (pdet t)) :: vis (S k) r else vis (S k) r.
Proof. intros. cbn [visible]. unfold in_sight. destruct (pdet t) as [pd cl]. reflexivity. Qed.

Lemma vis_nth : forall M j m k t pd, nth_error (vis j M) m = Some (k, t, pd) ->
  j <= k /\ (exists w, nth_error M (k - j) = Some (w, t)) /\ sight t = true /\ pd = fst (pdet t).
Proof.
  induction M as [|[w t0] M IH]; intros j m k t pd H; [destruct m; discriminate|].
  rewrite vis_cons in H.
  assert (G : forall m, nth_error (vis (S j) M) m = Some (k, t, pd) ->
    j <= k /\ (exists w0, nth_error ((w, t0) :: M) (k - j) = Some (w0, t)) /\ sight t = true /\ pd = fst (pdet t)).
  { intros m' Hm'. destruct (IH _ _ _ _ _ Hm') as (H1 & H2 & H3). split; [lia|]. split; [|exact H3].
    replace (k - j) with (S (k - S j)) by lia. exact H2. }
  destruct (sight t0) eqn:Es; [|eauto].
  destruct m as [|m]; [|eapply G; exact H]. cbn in H. injection H as <- <- <-. split; [lia|]. split; [|auto].
  exists w. now rewrite Nat.sub_diag.
Qed.

Lemma vis_in : forall M j k w t, nth_error M k = Some (w, t) -> sight t = true ->
  exists m, nth_error (vis j M) m = Some (j + k, t, fst (pdet t)).
Proof.
  induction M as [|[w0 t0] M IH]; intros j k w t H Hs; [destruct k; discriminate|].
  rewrite vis_cons. destruct k as [|k]; cbn in H.
  - injection H as -> ->. rewrite Hs. exists 0. cbn. now rewrite Nat.add_0_r.
  - destruct (IH (S j) k w t H Hs) as [m Hm]. replace (S j + k) with (j + S k) in Hm by lia.
    destruct (sight t0); [exists (S m)|exists m]; exact Hm.
Qed.

Definition idxs (l : list (nat * T * Qc)) : list nat := map (fun v => fst (fst v)) l.

Lemma idxs_nodup : forall M j, NoDup (idxs (vis j M)).
Proof.
  induction M as [|[w t] M IH]; intros j; [constructor|]. rewrite vis_cons. destruct (sight t); [|apply IH].
  cbn [idxs map fst]. constructor; [|apply IH]. intros H. apply in_map_iff in H. destruct H as (((k & t') & pd) & Ek & Hin).
  cbn in Ek. subst k. apply In_nth_error in Hin. destruct Hin as [m Hm]. apply vis_nth in Hm. lia.
Qed.

Lemma vis_length : forall M j, length (vis j M) = seen_count pdet M.
Proof.
  unfold seen_count. induction M as [|[w t] M IH]; intros j; [reflexivity|]. rewrite vis_cons. cbn [filter snd].
  destruct (sight t); cbn [length]; now rewrite IH.
Qed.

(** A sum over the landmarks in range is a sum over the map. *)
Lemma vis_sum : forall (f : nat -> T -> Z) M j,
  zsum (map (fun v => f (fst (fst v)) (snd (fst v))) (vis j M)) =
  isum (fun k g => if sight (snd g) then f k (snd g) else 0%Z) j M.
Proof.
  intros f. induction M as [|[w t] M IH]; intros j; [reflexivity|]. rewrite vis_cons. cbn [isum snd].
  destruct (sight t).
  - cbn [map fst snd zsum fold_right]. fold (zsum (map (fun v => f (fst (fst v)) (snd (fst v))) (vis (S j) M))). now rewrite IH.
  - rewrite IH. lia.
Qed.

(** ** Probability of existence *)
Section Params.
Hypothesis Hpfa : (0 < pfa)%Qc.
Hypothesis Hprior : (0 < prior)%Qc.
Hypothesis Hprior1 : (prior < 1)%Qc.
Notation upd_w := (exist_update pfa prior lock).
Notation o0 := (prior_odds prior).
Notation sf := (seen_factor pfa).
Notation mf := missed_factor.

Lemma odds_val : forall p, (0 <= p)%Qc -> (p < 1)%Qc -> odds p = Val (p / (1 - p))%Qc.
Proof. intros p H0 H1. unfold odds. apply Qcleb_true in H0. apply Qcltb_true in H1. now rewrite H0, H1. Qed.

Lemma odds_prior : odds prior = Val o0.
Proof using Hprior Hprior1. apply odds_val; [now apply Qclt_le_weak|exact Hprior1]. Qed.

Lemma seen_update : forall pd w, (0 <= pd)%Qc -> (pd <= 1)%Qc -> upd_w true pd w = Val (w * (o0 * sf pd))%Qc.
Proof using Hpfa Hprior Hprior1.
  intros pd w H0 H1. unfold exist_update, quotient.
  set (den := (pfa + (1 - pfa) * pd * prior)%Qc).
  assert (Hpp : (0 <= pd * prior)%Qc) by (clear - H0 Hprior; qcnra).
  assert (Hpq : (pd * prior < 1)%Qc) by (clear - H1 H0 Hprior Hprior1; qcnra).
  assert (Hden : (0 < den)%Qc). { unfold den. clear - Hpfa Hpp Hpq. qcnra. }
  rewrite (qc_eqb_false den 0) by now apply Qcpos_neq. cbn [obind].
  set (num := ((1 - pd) * pfa * prior + pd * prior)%Qc).
  assert (Hdiff : (den - num = pfa * (1 - prior))%Qc) by (unfold den, num; ring).
  assert (Hnum : (0 <= num)%Qc). { unfold num. assert ((0 <= (1 - pd) * pfa)%Qc) by (clear - H1 Hpfa; qcnra). clear - H Hprior H0. qcnra. }
  assert (Hpos : (0 < pfa * (1 - prior))%Qc) by (clear - Hpfa Hprior1; qcnra).
  rewrite odds_val.
  - cbn [obind]. f_equal. f_equal.
    assert (Hd0 := Qcpos_neq _ Hden). assert (Hp0 := Qcpos_neq _ Hpfa).
    assert (H10 : (1 - prior)%Qc <> 0%Qc). { apply Qcpos_neq. clear - Hprior1. qclra. }
    replace (1 - num / den)%Qc with ((den - num) / den)%Qc by (field; auto).
    rewrite Hdiff. unfold prior_odds, seen_factor. unfold num. field. repeat split; auto.
    
  - apply Qcle_div; [exact Hden|]. clear - Hnum. qclra.
  - apply Qcdiv_lt; [exact Hden|]. clear - Hdiff Hpos. qclra.
Qed.

Lemma missed_update : forall pd w, (0 <= pd)%Qc -> (pd <= 1)%Qc -> upd_w false pd w =
  Val (if Qcltb lock w then w else (w * (o0 * mf pd))%Qc).
Proof using Hprior Hprior1.
  intros pd w H0 H1. unfold exist_update, quotient. destruct (Qcltb lock w).
  - cbn [obind]. rewrite odds_val; [|discriminate|reflexivity]. cbn [obind]. f_equal.
    replace (1 / (1 + 1) / (1 - 1 / (1 + 1)))%Qc with 1%Qc; [ring|]. field. split; discriminate.
  - set (den := (1 - prior + (1 - pd) * prior)%Qc).
    assert (Hpq : (0 <= (1 - pd) * prior)%Qc) by (clear - H1 Hprior; qcnra).
    assert (Hden : (0 < den)%Qc). { unfold den. clear - Hpq Hprior1. qclra. }
    rewrite (qc_eqb_false den 0) by now apply Qcpos_neq. cbn [obind].
    assert (Hd0 := Qcpos_neq _ Hden).
    assert (H10 : (1 - prior)%Qc <> 0%Qc). { apply Qcpos_neq. clear - Hprior1. qclra. }
    rewrite odds_val.
    + cbn [obind]. f_equal. f_equal.
      replace (1 - (1 - pd) * prior / den)%Qc with ((1 - prior) / den)%Qc by (unfold den in *; field; auto).
      unfold prior_odds, missed_factor. field. auto.
    + apply Qcle_div; [exact Hden|]. clear - Hpq. qclra.
    + apply Qcdiv_lt; [exact Hden|]. unfold den. clear - Hprior1. qclra.
Qed.

(** ** The loop over the landmarks in range *)
Section Loop.
Variable M : list (Qc * T).
Variable tab : mat.
Variable d : nat -> option nat.
Notation V := (vis 0 M).
Hypothesis Htab : forall m z, m < length V -> tab m z = table logl nZ lim V m z.
Hypothesis Hpd : forall w t, In (w, t) M -> (0 <= fst (pdet t) <= 1)%Qc.

(** The entry used for row m. *)
Definition pass (m : nat) (o : option nat) : option nat :=
  match o with Some z => if (z <? nZ) && (lim <? tab m z)%Z then Some z else None | None => None end.
(** The association of map indices. *)
Definition assoc (k : nat) : option nat :=
  match index_of k (idxs V) with Some m => pass m (d m) | None => None end.

Lemma V_idx : forall m k t pd, nth_error V m = Some (k, t, pd) -> index_of k (idxs V) = Some m.
Proof.
  intros m k t pd H. assert (Hn := idxs_nodup M 0).
  replace k with (nth m (idxs V) 0).
  - apply index_of_nth; [exact Hn|]. unfold idxs. rewrite map_length. now apply nth_error_lt in H.
  - apply nth_error_nth. unfold idxs. now rewrite nth_error_map, H.
Qed.

Lemma tab_val : forall m k t pd z, nth_error V m = Some (k, t, pd) -> z < nZ -> tab m z = Z.max lim (ll t z).
Proof using Htab.
  intros m k t pd z H Hz. rewrite Htab by now apply nth_error_lt in H. unfold table. rewrite H.
  apply Nat.ltb_lt in Hz. rewrite Hz. unfold loglik. destruct (logl t); lia.
Qed.
Lemma tab_out : forall m z, m < length V -> nZ <= z -> tab m z = lim.
Proof using Htab.
  intros m z H Hz. rewrite Htab by auto. unfold table. destruct (nth_error V m) as [[[? ?] ?]|]; auto.
  apply Nat.ltb_ge in Hz. now rewrite Hz.
Qed.

Lemma pass_some : forall m o z, pass m o = Some z -> o = Some z /\ z < nZ /\ (lim < tab m z)%Z.
Proof.
  intros m [z'|] z H; [|discriminate]. cbn [pass] in H. destruct (Nat.ltb_spec z' nZ); cbn [andb] in H; [|discriminate].
  destruct (Z.ltb_spec lim (tab m z')); [|discriminate]. injection H as ->. auto.
Qed.

Definition used_before (m z : nat) : bool :=
  existsb (fun m' => match nth_error V m' with
                     | Some (k, t, _) => match applied pdet correct assoc k t with Some (z', _) => z =? z' | None => false end
                     | None => false end) (seq 0 m).
Definition log_before (m : nat) : Z :=
  zsum (map (fun m' => match nth_error V m' with
                       | Some (k, t, _) => match applied pdet correct assoc k t with Some (z, _) => ll t z | None => 0%Z end
                       | None => 0%Z end) (seq 0 m)).
Definition map_before (m k : nat) (g : Qc * T) : Qc * T :=
  match index_of k (idxs V) with
  | Some m' => if m' <? m then after pdet correct pfa prior lock assoc k g else g
  | None => g
  end.

Definition linv (m : nat) (st : lms) : Prop :=
  (forall k, nth_error (lmap st) k = option_map (map_before m k) (nth_error M k)) /\
  length (lused st) = nZ /\ (forall z, z < nZ -> nth z (lused st) true = used_before m z) /\
  llog st = log_before m.

Lemma applied_V : forall m k t pd, nth_error V m = Some (k, t, pd) ->
  applied pdet correct assoc k t = match pass m (d m) with Some z => option_map (pair z) (correct z t) | None => None end.
Proof.
  intros m k t pd H. unfold applied, assoc. destruct (vis_nth _ _ _ _ _ _ H) as (_ & _ & Hs & _). rewrite Hs.
  rewrite (V_idx _ _ _ _ H). reflexivity.
Qed.

Lemma seq_snoc : forall n, seq 0 (S n) = seq 0 n ++ [n].
Proof. intros. rewrite seq_S. reflexivity. Qed.

Lemma lm_step_ok : forall m st, m < length V -> linv m st ->
  exists st', lm_step correct nZ pfa lim prior lock tab V d m st = Val st' /\ linv (S m) st'.
Proof using Htab Hpd Hpfa Hprior Hprior1.
  intros m st Hm (I1 & I2 & I3 & I4).
  destruct (nth_error_ex _ V m Hm) as [[[k t] pd] Hv].
  destruct (vis_nth _ _ _ _ _ _ Hv) as (_ & [w Hw] & Hs & Epd). rewrite Nat.sub_0_r in Hw.
  assert (Hidx := V_idx _ _ _ _ Hv). assert (Happ := applied_V _ _ _ _ Hv).
  destruct (Hpd w t (nth_error_In _ _ Hw)) as [Hp0 Hp1]. rewrite <- Epd in Hp0, Hp1.
  assert (Hcur : nth_error (lmap st) k = Some (w, t)).
  { rewrite I1, Hw. cbn [option_map]. unfold map_before. now rewrite Hidx, Nat.ltb_irrefl. }
  unfold lm_step. rewrite Hv. cbn [of_option obind]. rewrite Hcur. cbn [of_option obind].
  assert (Edone : match d m with
     | Some z => if (z <? nZ) && (lim <? tab m z)%Z then option_map (pair z) (correct z t) else None
     | None => None end = applied pdet correct assoc k t).
  { rewrite Happ. unfold pass. destruct (d m) as [z|]; auto. destruct ((z <? nZ) && (lim <? tab m z)%Z); auto. }
  rewrite Edone.
  assert (Hmap : forall g', after pdet correct pfa prior lock assoc k (w, t) = g' ->
     forall k', nth_error (upd (lmap st) k g') k' = option_map (map_before (S m) k') (nth_error M k')).
  { intros g' Eg k'. destruct (Nat.eq_dec k k') as [<-|Hne].
    - rewrite nth_error_upd_eq by now apply nth_error_lt in Hcur. rewrite Hw. cbn [option_map]. unfold map_before.
      rewrite Hidx. rewrite (proj2 (Nat.ltb_lt m (S m))) by lia. now rewrite Eg.
    - rewrite nth_error_upd_neq by auto. rewrite I1. destruct (nth_error M k') as [g|]; auto. cbn [option_map]. f_equal.
      unfold map_before. destruct (index_of k' (idxs V)) as [m'|] eqn:E'; auto.
      assert (m' <> m). { intros ->. apply index_of_some in E'. unfold idxs in E'. rewrite nth_error_map, Hv in E'. cbn in E'. congruence. }
      destruct (Nat.ltb_spec m' m), (Nat.ltb_spec m' (S m)); auto; lia. }
  assert (Hused : forall z, used_before (S m) z = used_before m z || match applied pdet correct assoc k t with Some (z', _) => z =? z' | None => false end).
  { intros z. unfold used_before. rewrite seq_snoc, existsb_app. cbn [existsb]. now rewrite Hv, orb_false_r. }
  assert (Hlog : log_before (S m) = (log_before m + match applied pdet correct assoc k t with Some (z, _) => ll t z | None => 0 end)%Z).
  { unfold log_before. rewrite seq_snoc, map_app, zsum_app. cbn [map zsum fold_right]. rewrite Hv. lia. }
  assert (Hafter : after pdet correct pfa prior lock assoc k (w, t) =
    match applied pdet correct assoc k t with
    | Some (_, t') => ((w * (o0 * sf pd))%Qc, t')
    | None => (if Qcltb lock w then w else (w * (o0 * mf pd))%Qc, t) end).
  { unfold after. rewrite Hs, <- Epd. destruct (applied pdet correct assoc k t) as [[? ?]|]; auto. now destruct (Qcltb lock w). }
  destruct (applied pdet correct assoc k t) as [[z t']|] eqn:Ea.
  - rewrite seen_update by auto. cbn [obind]. eexists. split; [reflexivity|].
    assert (Hz : z < nZ /\ tab m z = ll t z).
    { destruct (pass m (d m)) as [z'|] eqn:Ep; [|discriminate]. destruct (correct z' t); [|discriminate]. injection Happ as -> _.
      apply pass_some in Ep. destruct Ep as (_ & Hz & Ht). split; [exact Hz|].
      rewrite (tab_val _ _ _ _ _ Hv Hz) in *. lia. }
    destruct Hz as [Hz Et].
    split; [cbn [lmap]; now apply Hmap|]. cbn [lused llog]. split; [now rewrite upd_length|]. split.
    + intros z0 Hz0. rewrite Hused. destruct (Nat.eq_dec z z0) as [<-|Hne].
      * rewrite nth_upd_eq by lia. now rewrite Nat.eqb_refl, orb_true_r.
      * rewrite nth_upd_neq by auto. rewrite I3 by auto. rewrite (proj2 (Nat.eqb_neq z0 z)) by auto. now rewrite orb_false_r.
    + rewrite Hlog, I4, Et. lia.
  - rewrite missed_update by auto. cbn [obind]. eexists. split; [reflexivity|].
    split; [cbn [lmap]; now apply Hmap|]. cbn [lused llog]. split; [exact I2|]. split.
    + intros z0 Hz0. rewrite Hused, orb_false_r. now apply I3.
    + rewrite Hlog, I4. lia.
Qed.

Lemma lm_loop : exists st, for_ (length V) (lm_step correct nZ pfa lim prior lock tab V d) (LM M 0 (repeat false nZ) 0%Z) = Val st /\
  lmap st = indexed (after pdet correct pfa prior lock assoc) M /\
  (forall z, z < nZ -> nth z (lused st) true = is_used pdet correct M assoc z) /\
  llog st = evidence pdet logl correct lim M assoc.
Proof using Htab Hpd Hpfa Hprior Hprior1.
  destruct (for_inv linv (lm_step correct nZ pfa lim prior lock tab V d) (length V) (LM M 0 (repeat false nZ) 0%Z)) as (st & E & I1 & I2 & I3 & I4).
  - split; [|split; [|split]]; cbn [lmap lused llog].
    + intros k. destruct (nth_error M k); auto. cbn [option_map]. f_equal. unfold map_before. destruct (index_of k (idxs V)); auto.
    + apply repeat_length.
    + intros z Hz. unfold used_before. cbn [seq existsb].
      rewrite (nth_indep _ true false) by now rewrite repeat_length. apply nth_repeat.
    + reflexivity.
  - intros m st Hm I. now apply lm_step_ok.
  - exists st. split; [exact E|]. split; [|split].
    + apply list_ext. intros k. rewrite I1, indexed_nth. destruct (nth_error M k) as [[w t]|] eqn:Ek; auto. cbn [option_map]. f_equal.
      unfold map_before. destruct (index_of k (idxs V)) as [m|] eqn:Em.
      * apply index_of_some in Em. unfold idxs in Em. apply nth_error_lt in Em. rewrite map_length in Em. apply Nat.ltb_lt in Em. now rewrite Em.
      * unfold after. destruct (sight t) eqn:Es; auto. exfalso.
        destruct (vis_in M 0 k w t Ek Es) as [m Hm]. apply V_idx in Hm. cbn [Nat.add] in Hm. congruence.
    + intros z Hz. rewrite I3 by auto. apply eq_true_iff_eq. unfold used_before, is_used. rewrite !existsb_exists. split.
      * intros (m & _ & H). destruct (nth_error V m) as [[[k t] pd]|] eqn:Ev; [|discriminate].
        exists true. split; [|reflexivity]. destruct (vis_nth _ _ _ _ _ _ Ev) as (_ & [w Hw] & _). rewrite Nat.sub_0_r in Hw.
        apply (nth_error_In _ k). rewrite indexed_nth, Hw. cbn [option_map snd]. now rewrite H.
      * intros (b & Hb & ->). apply In_nth_error in Hb. destruct Hb as [k Hk]. rewrite indexed_nth in Hk.
        destruct (nth_error M k) as [[w t]|] eqn:Ek; [|discriminate]. cbn [option_map snd] in Hk. injection Hk as Hk.
        assert (Es : sight t = true). { unfold applied in Hk. destruct (sight t); auto. }
        destruct (vis_in M 0 k w t Ek Es) as [m Hm]. exists m. split.
        -- apply in_seq. apply nth_error_lt in Hm. lia.
        -- rewrite Hm. exact Hk.
    + rewrite I4. unfold log_before, evidence. rewrite total_isum.
      rewrite (isum_ext _ _ (fun k g => if sight (snd g) then (fun k t => match applied pdet correct assoc k t with Some (z, _) => ll t z | None => 0%Z end) k (snd g) else 0%Z)).
      * rewrite <- (vis_sum (fun k t => match applied pdet correct assoc k t with Some (z, _) => ll t z | None => 0%Z end)). f_equal. assert (G : forall (l : list (nat * T * Qc)) (F : nat * T * Qc -> Z),
          map (fun m => match nth_error l m with Some v => F v | None => 0%Z end) (seq 0 (length l)) = map F l).
        { intros l F. apply list_ext. intros i. rewrite !nth_error_map. destruct (nth_error l i) as [v|] eqn:Ei.
          - assert (Hi := nth_error_lt _ _ _ _ Ei). rewrite (nth_error_nth' (seq 0 (length l)) 0) by now rewrite seq_length.
            rewrite seq_nth by auto. cbn. now rewrite Ei.
          - apply nth_error_None in Ei. rewrite (proj2 (nth_error_None (seq 0 (length l)) i)) by now rewrite seq_length. reflexivity. }
        rewrite <- G. apply map_ext. intros m. destruct (nth_error V m) as [[[k t] pd]|]; reflexivity.
      * intros k [w t] _. cbn [snd]. unfold applied at 1. destruct (sight t) eqn:Es; [|reflexivity]. unfold applied. rewrite Es. reflexivity.
Qed.

(** ** Landmarks started from unused measurements *)
Lemma birth_loop : forall (used : nat -> bool) fov mp n,
  for_ n (fun z s => if used z then Val s else birth_z inv near corr 1 chkT curT o0 fov z s) ([], mp) =
  Val ([], mp ++ map (fun z => (o0, inv z)) (filter (fun z => negb (used z)) (seq 0 n))).
Proof.
  intros used fov mp n.
  destruct (for_inv (fun k s => s = ([], mp ++ map (fun z => (o0, inv z)) (filter (fun z => negb (used z)) (seq 0 k))))
    (fun z s => if used z then Val s else birth_z inv near corr 1 chkT curT o0 fov z s) n ([], mp)) as (s & E & ->); [| |exact E].
  - cbn. now rewrite app_nil_r.
  - intros k t Hk ->. rewrite seq_snoc, filter_app, map_app, app_assoc. cbn [filter]. destruct (used k); cbn [negb].
    + eexists. split; [reflexivity|]. cbn [map]. now rewrite app_nil_r.
    + unfold birth_z. cbn. eexists. split; [reflexivity|]. now rewrite app_nil_r.
Qed.

Lemma hyp_update_ok : forall w, exists fov,
  hyp_update correct inv near corr expo prn nZ pfa lim prior lock 1 chkT curT pruneT tab V d (w, M) [] =
  Val (updated pdet logl correct inv expo prn nZ pfa lim prior lock pruneT w M assoc, [], fov).
Proof using Htab Hpd Hpfa Hprior Hprior1.
  intros w. unfold hyp_update. cbn [fst snd].
  destruct lm_loop as (st & E & E1 & E2 & E3). rewrite E. cbn [obind]. rewrite odds_prior. cbn [obind].
  rewrite birth_loop. cbn [obind fst snd]. exists (lfov st). f_equal. f_equal. f_equal. unfold updated. f_equal; [now rewrite E3|].
  rewrite E1. f_equal. f_equal. unfold left_over. apply filter_ext_in. intros z Hz. apply in_seq in Hz. now rewrite E2 by lia.
Qed.
End Loop.
End Params.
End Fast.
