(** Runs of the PHD filter. *)
From Coq Require Import ZArith QArith Qcanon List Bool Arith Lia Permutation.
From Verif Require RfsProofs.
From Verif Require Import Base ListUtil QcLra Loop ParticleModel ParticleSpec ParticleProofs ParticleProofs3 FastRunProofs FastRunProofs3 RbRunModel RbRunSpec RbRunProofs RbRunProofs2
  PermanentSpec PermanentProofs PhdModel WeighModel WeighSpec BirthModel BirthProofs PhdRunModel PhdRunSpec PhdRunProofs3.
Import ListNotations.
Local Open Scope nat_scope.

(** ** Any map *)
Section Parts.
Context {Pose D : Type}.
Notation part := (particle Pose D).
Variable Mp : D -> Prop.
Variable n : nat.
Definition okp (p : part) : Prop := exists d w, pdata p = Some d /\ Mp d /\ pw p = Some w /\ (0 < w)%Qc /\ pid p < n /\ pparent p < n.

Lemma norm_okp : forall l : list part, Forall okp l -> Forall okp (normalizeWeights l).
Proof.
  intros l H. destruct (norm_scale l (fun i => match nth_error l i with Some p => match pw p with Some w => w | None => 1%Qc end | None => 1%Qc end) 1%Qc) as (k & Hk & N).
  { now vm_compute. }
  { intros i p Hp. rewrite Hp. rewrite Forall_forall in H. destruct (H p (nth_error_In _ _ Hp)) as (ts & w & _ & _ & -> & Hw & _). split; [f_equal; ring|exact Hw]. }
  apply Forall_forall. intros q Hq. apply In_nth_error in Hq as [i Hi]. specialize (N i q Hi). cbn beta in N.
  assert (E : exists p, nth_error l i = Some p /\ pdata q = pdata p /\ pid q = pid p /\ pparent q = pparent p).
  { unfold normalizeWeights in Hi. rewrite nth_error_map in Hi. destruct (nth_error l i) as [p|]; [|discriminate]. cbn in Hi. injection Hi as <-. exists p. auto. }
  destruct E as (p & Hp & Hd & H1 & H2). rewrite Hp in N. rewrite Forall_forall in H. destruct (H p (nth_error_In _ _ Hp)) as (ts & w & E1 & E2 & E3 & E4 & E5 & E6).
  rewrite E3 in N. exists ts, (k * w)%Qc. split; [congruence|]. split; [exact E2|]. split; [exact N|]. split; [clear - Hk E4; qcnra|]. split; congruence.
Qed.
Lemma okp_weights : forall l : list part, l <> [] -> Forall okp l -> all_data l /\ exists w, weights_of l w.
Proof.
  intros l Hne H. split.
  - intros p Hp. rewrite Forall_forall in H. destruct (H p Hp) as (ts & w & E1 & _). congruence.
  - exists (map (fun p => match pw p with Some w => w | None => 0%Qc end) l). split; [|split].
    + rewrite map_map. apply map_ext_in. intros p Hp. rewrite Forall_forall in H. destruct (H p Hp) as (ts & w & _ & _ & -> & _). reflexivity.
    + intros x Hx. apply in_map_iff in Hx as (p & <- & Hp). rewrite Forall_forall in H. destruct (H p Hp) as (ts & w & _ & _ & -> & Hw & _). now apply Qclt_le_weak.
    + destruct l as [|p l]; [contradiction|]. inversion H as [|? ? (ts & w & _ & _ & E & Hw & _) Hl]; subst. cbn [map qsum fold_right]. rewrite E.
      assert (A : (0 <= qsum (map (fun p => match pw p with Some w => w | None => 0%Qc end) l))%Qc).
      { apply qsum_nonneg. intros x Hx. apply in_map_iff in Hx as (q & <- & Hq). rewrite Forall_forall in Hl. destruct (Hl q Hq) as (? & v & _ & _ & -> & Hv & _). now apply Qclt_le_weak. }
      unfold qsum in A. change (0 < w + fold_right Qcplus 0 (map (fun p => match pw p with Some w => w | None => 0%Qc end) l))%Qc. qclra.
Qed.

Lemma finish_ok : forall c u (s : rbf Pose D), 0 < n -> length (pset (rpf s)) = n -> Forall okp (pset (rpf s)) ->
  effT (rpf s) <> None -> effPct (rpf s) <> None -> (0 <= u < 1)%Qc ->
  exists s', finish c u s = Val s' /\ length (pset (rpf s')) = n /\ Forall okp (pset (rpf s')) /\ effT (rpf s') <> None /\ effPct (rpf s') <> None.
Proof.
  intros c u s Hn L Hok Ht Hp Hu. unfold finish.
  assert (Hne : pset (rpf s) <> []) by (destruct (pset (rpf s)); [cbn in L; lia|discriminate]).
  destruct (okp_weights _ Hne Hok) as [Hd [w Hw]]. destruct (ripe c (rupd s) (rmeas s)); cbn [obind].
  - destruct (effT (rpf s)) as [t1|] eqn:Et; [|congruence]. destruct (effPct (rpf s)) as [p1|] eqn:Ep; [|congruence].
    destruct (resample_defined (rpf s) u t1 p1) as (f & o & Er & Ef1 & Ef2); auto.
    { intros p Hin q Hq. rewrite Forall_forall in Hok. destruct (Hok p Hin) as (ts & v & _ & _ & E3 & E4 & _). rewrite E3 in Hq. injection Hq as <-. now apply Qclt_le_weak. }
    rewrite Er. cbn [obind]. destruct o.
    + eexists. split; [reflexivity|]. cbn [rpf]. split; [rewrite (resample_length _ _ _ _ _ Er); exact L|]. rewrite Ef1, Ef2, Et, Ep.
      split; [|split; discriminate]. apply Forall_forall. intros q Hq. apply In_nth_error in Hq as [i Hi]. apply resample_forced in Er.
      destruct (resample_ok _ _ (rpf s) 0 u w Hw Hd Hu) as (f' & sel & src & E & _ & _ & _ & [_ Hb] & _). rewrite E in Er. injection Er as ->.
      destruct (Hb i q Hi) as (j & p & _ & Hj & _ & _ & E1 & E2 & E3 & E4). rewrite Forall_forall in Hok.
      destruct (Hok p (nth_error_In _ _ Hj)) as (ts & v & F1 & F2 & _ & _ & F3 & _). exists ts, 1%Qc. split; [congruence|]. split; [exact F2|]. split; [exact E4|].
      split; [reflexivity|]. split; congruence.
    + apply resample_refused in Er as (_ & -> & _). eexists. split; [reflexivity|]. cbn [rpf pset effT effPct]. rewrite !norm_length.
      split; [exact L|]. split; [now apply norm_okp, norm_okp|]. rewrite Et, Ep. split; discriminate.
  - eexists. split; [reflexivity|]. cbn [rpf pset effT effPct]. rewrite norm_length. split; [exact L|]. split; [now apply norm_okp|auto].
Qed.
End Parts.

(** ** Births *)
Section Births.
Variable T : Type.
Variable near : nat -> T -> nat -> bool.
Variable corr : nat -> T -> nat -> T.
Variable inv : nat -> nat -> T.
Variables chkT curT nZ n L : nat.
Definition oksl (s : slot T) : Prop := scands T s = [] /\ (forall z, In z (sunused T s) -> z < nZ) /\ length (sunused T s) <= L /\ sparent T s < n /\
  length (sadded T s) <= L /\ forall b, In b (sadded T s) -> exists i z, i < n /\ z < nZ /\ b = inv i z.

Lemma births_ok : forall res ss, length ss = n -> Forall oksl ss ->
  exists ss', addBirthGaussians T near corr inv 1 chkT curT res nZ ss = Val ss' /\ length ss' = n /\ Forall oksl ss' /\ Forall (fun s => sunused T s = []) ss'.
Proof.
  intros res ss Hl Hs. unfold addBirthGaussians. rewrite Hl.
  destruct (for_inv (fun k t => length t = n /\ Forall oksl t /\ forall i s, i < k -> nth_error t i = Some s -> sunused T s = [])
    (birth_step T near corr inv 1 chkT curT res nZ) n ss) as (ss' & E & A & B & C).
  - split; [exact Hl|]. split; [exact Hs|]. intros i s Hi. lia.
  - intros k t Hk (A & B & C). unfold birth_step. destruct (nth_error t k) as [s|] eqn:Es; [|apply nth_error_None in Es; lia].
    rewrite Forall_forall in B. assert (Hsk := B s (nth_error_In _ _ Es)).
    assert (G : exists s1, (if res && negb (sparent T s =? k) then match nth_error t (sparent T s) with None => UB OutOfBounds | Some p => Val (SL T (sunused T p) (scands T p) (sfov T s) (sadded T s) (sparent T s)) end else Val s) = Val s1 /\ oksl s1).
    { destruct (res && negb (sparent T s =? k)); [|exists s; auto]. destruct Hsk as (H1 & H2 & H3 & H4 & H5 & H6).
      destruct (nth_error t (sparent T s)) as [p|] eqn:Ep; [|apply nth_error_None in Ep; lia].
      eexists. split; [reflexivity|]. destruct (B p (nth_error_In _ _ Ep)) as (P1 & P2 & P3 & _). unfold oksl. cbn. auto 10. }
    destruct G as (s1 & -> & H1 & H2 & H3 & H4 & _). cbn [obind].
    rewrite (birth_direct T near corr inv 1 chkT curT k nZ s1 eq_refl H1 H2). cbn [obind]. eexists. split; [reflexivity|].
    split; [rewrite upd_length; exact A|]. split.
    + apply Forall_forall. intros x Hx. apply upd_in in Hx. destruct Hx as [->|Hx]; [|apply B; exact Hx].
      unfold oksl. cbn. split; [reflexivity|]. split; [intros z []|]. split; [lia|]. split; [exact H4|]. split; [rewrite map_length, rev_length; exact H3|].
      intros b Hb. apply in_map_iff in Hb as (z & <- & Hz). exists k, z. split; [exact Hk|]. split; [|reflexivity]. apply H2. now apply in_rev.
    + intros i x Hi Hx. destruct (Nat.eq_dec i k) as [->|Hne].
      * rewrite nth_error_upd_eq in Hx by lia. injection Hx as <-. reflexivity.
      * rewrite nth_error_upd_neq in Hx by congruence. apply (C i); [lia|exact Hx].
  - exists ss'. split; [exact E|]. split; [exact A|]. split; [exact B|]. apply Forall_forall. intros s Hin. apply In_nth_error in Hin as [i Hi].
    apply (C i s); [|exact Hi]. assert (Q := nth_error_lt _ _ _ _ Hi). lia.
Qed.
End Births.

(** ** Runs *)
Section Run.
Context {Pose M T : Type}.
Variable sn : hsensor Pose M T.
Variable cf : hconf.
Variable o : houtside T.
Hypothesis Hsn : hsensor_sound sn.
Hypothesis Hcf : hconf_sound cf.
Hypothesis Ho : houtside_sound o.
Notation part := (particle Pose (list (T * Qc))).
Notation W := (hBirthW cf).

(** Non-negative weights, at most [K] landmarks. *)
Definition okm (K : Qc) (mix : list (T * Qc)) : Prop := (forall lm v, In (lm, v) mix -> (0 <= v)%Qc) /\ (mass T mix <= K)%Qc.
Definition oku (zs : list M) (L : nat) (s : hslot T) : Prop := lCands s = [] /\ (forall z, In z (lUnused s) -> z < length zs) /\ length (lUnused s) <= L.
Definition hinv (n : nat) (K : Qc) (L : nat) (pending : bool) (s : hfilt Pose M T) : Prop :=
  length (pset (rpf (hRb s))) = n /\ length (hSlots s) = n /\ Forall (okp (okm K) n) (pset (rpf (hRb s))) /\ Forall (oku (hZ s) L) (hSlots s) /\
  (pending = false -> Forall (fun u => lUnused u = []) (hSlots s)) /\ effT (rpf (hRb s)) <> None /\ effPct (rpf (hRb s)) <> None.

Lemma upd_ok : forall n K zs (l : list part) ss, zs <> [] -> Forall (okp (okm K) n) l -> length ss = length l -> Forall (fun u : hslot T => lCands u = []) ss ->
  exists l' ss', hupd_all sn cf o zs l ss = Val (l', ss') /\ length l' = length l /\ length ss' = length l /\
  Forall (okp (okm (K + QcN (length zs))) n) l' /\ Forall (oku zs (length zs)) ss'.
Proof.
  intros n K zs l ss Hz H. revert ss. induction H as [|p l (mix & w & E1 & (M1 & M2) & E3 & E4 & E5 & E6) _ IH]; intros ss Hl Hc; cbn [hupd_all].
  { exists [], []. repeat split; constructor. }
  destruct ss as [|s ss]; [discriminate|]. inversion Hc as [|? ? Hc1 Hc2]; subst.
  rewrite E1. cbn [of_option obind]. rewrite E3. destruct (phd_one_ok sn cf o Hsn Ho zs (ppose p) mix w Hz M1 E4) as (m & w' & -> & N1 & N2 & N3 & N4 & N5 & N6). cbn [obind].
  destruct (IH ss) as (l' & ss' & -> & L1 & L2 & F1 & F2); [cbn in Hl; lia|exact Hc2|]. cbn [obind fst snd].
  eexists _, _. split; [reflexivity|]. split; [cbn; congruence|]. split; [cbn; congruence|]. split.
  - constructor; [|exact F1]. exists (nMap m), w'. cbn [pdata pw pid pparent]. split; [reflexivity|]. split; [|auto]. split; [exact N1|]. clear - N2 M2. qclra.
  - constructor; [|exact F2]. unfold oku. cbn. auto.
Qed.

Lemma newborns_ok : forall L (b : list (option T)), length b <= L -> (forall x, In x b -> x <> None) ->
  exists nb, newborns cf b = Val nb /\ okm (QcN L * W) nb.
Proof.
  destruct Hcf as [HW _]. intros L b. revert L. induction b as [|x b IH]; intros L HL H; cbn [newborns].
  - exists []. split; [reflexivity|]. split; [intros lm v []|]. change (mass T []) with 0%Qc. apply RfsProofs.qmul_nonneg; [apply QcN_nonneg|exact HW].
  - destruct x as [lm|]; [|exfalso; apply (H None); [left; reflexivity|reflexivity]]. cbn [of_option obind].
    destruct L as [|L]; [cbn in HL; lia|]. destruct (IH L) as (nb & -> & A & B); [cbn in HL; lia|intros y Hy; apply H; right; exact Hy|].
    cbn [obind]. eexists. split; [reflexivity|]. split.
    + intros l v [E|Hi]; [injection E as <- <-; exact HW|apply (A l v Hi)].
    + unfold mass in *. cbn [map snd]. rewrite RfsProofs.qsum_cons, QcN_S. replace ((QcN L + 1) * W)%Qc with (QcN L * W + W)%Qc by ring. clear - B. qclra.
Qed.
Lemma still_mass : forall (stat : T -> T) (a b : list (T * Qc)) K1 K2, okm K1 a -> okm K2 b -> okm (K1 + K2) (map (fun g => (stat (fst g), snd g)) (a ++ b)).
Proof.
  intros stat a b K1 K2 [A1 A2] [B1 B2]. split.
  - intros lm v Hi. apply in_map_iff in Hi as ([l w] & E & Hi). injection E as <- <-. cbn [snd]. apply in_app_or in Hi as [Hi|Hi]; eauto.
  - unfold mass in *. assert (E : map snd (map (fun g : T * Qc => (stat (fst g), snd g)) (a ++ b)) = map snd (a ++ b)) by (rewrite map_map; apply map_ext; reflexivity).
    rewrite E, map_app, PermanentProofs.qsum_app. clear - A2 B2. qclra.
Qed.
Lemma pred_ok : forall n K L move stat keep (l : list part) bs i, Forall (okp (okm K) n) l -> length bs = length l ->
  Forall (fun b : list (option T) => length b <= L /\ forall x, In x b -> x <> None) bs ->
  exists l', hpred_all cf move stat keep i l bs = Val l' /\ length l' = length l /\ Forall (okp (okm (K + QcN L * W)) n) l'.
Proof.
  intros n K L move stat keep l. induction l as [|p l IH]; intros bs i H Hl Hb; cbn [hpred_all]; [exists []; auto|].
  destruct bs as [|b bs]; [discriminate|]. inversion H as [|? ? (mix & w & E1 & E2 & E3 & E4 & E5 & E6) Hl']; subst. inversion Hb as [|? ? [Hb1 Hb2] Hb3]; subst.
  rewrite E1. cbn [of_option obind]. destruct (newborns_ok L b Hb1 Hb2) as (nb & -> & Nb). cbn [obind].
  destruct (IH bs (S i) Hl') as (l' & -> & L1 & F1); [cbn in Hl; lia|exact Hb3|]. cbn [obind].
  eexists. split; [reflexivity|]. split; [cbn; congruence|]. constructor; [|exact F1].
  eexists _, w. cbn [pdata pw pid pparent]. split; [reflexivity|]. split; [|auto]. apply still_mass; assumption.
Qed.

Lemma zip_nth : forall {A B C} (f : A -> B -> C) l m i x, nth_error (zip f l m) i = Some x -> exists a b, nth_error l i = Some a /\ nth_error m i = Some b /\ x = f a b.
Proof.
  intros A B C f. induction l as [|a l IH]; intros [|b m] [|i] x H; cbn in H; try discriminate.
  - injection H as <-. exists a, b. auto.
  - apply IH in H. exact H.
Qed.

Lemma call_ok : forall g0 c n K L pending s k, 0 < n -> (0 <= K)%Qc -> hinv n K L pending s -> hcalm pending [k] -> (forall zs u, k = HUpdate zs u -> (0 <= u < 1)%Qc) ->
  exists s' K' L', hdo sn cf o g0 c s k = Val s' /\
  hinv n K' L' (match k with HPredict check _ _ => if check then false else pending | HUpdate [] _ => false | HUpdate _ _ => true | HThreshold _ => pending end) s' /\
  (0 <= K')%Qc /\ (K' + QcN L' * W <= K + QcN L * W + QcN (heard [k]) * (1 + W))%Qc.
Proof.
  intros g0 c n K L pending s k Hn HK (L1 & L2 & Hok & Hus & Hp & He1 & He2) Hc Hu. destruct Hcf as [HW Hcnt].
  assert (HLW : (0 <= QcN L * W)%Qc) by (apply RfsProofs.qmul_nonneg; [apply QcN_nonneg|exact HW]).
  destruct k as [check move stat|zs u|t]; cbn [hdo].
  - unfold hpredict. set (l := pset (rpf (hRb s))) in *.
    assert (Hz : Forall (oksl (option T) (fun i z => match nth_error l i, nth_error (hZ s) z with Some p, Some y => Some (hInv sn (ppose p) y) | _, _ => None end) (length (hZ s)) n L)
       (zip as_slot (hSlots s) l)).
    { apply Forall_forall. intros x Hx. apply zip_in in Hx as (a & b & Ha & Hb & ->). unfold oksl. cbn. rewrite Forall_forall in Hus, Hok.
      destruct (Hus a Ha) as (U1 & U2 & U3). destruct (Hok b Hb) as (mx & w & _ & _ & _ & _ & _ & Hpar). split; [exact U1|]. split; [exact U2|]. split; [exact U3|].
      split; [exact Hpar|]. split; [lia|]. intros b0 []. }
    assert (Lz : length (zip (@as_slot Pose T) (hSlots s) l) = n) by (rewrite zip_length; congruence).
    destruct check.
    + unfold hbirths. fold l. rewrite Hcnt.
      match goal with |- context [addBirthGaussians _ ?nr ?cr ?iv _ ?a ?b ?r _ _] => destruct (births_ok (option T) nr cr iv a b (length (hZ s)) n L r _ Lz Hz) as (bs & -> & B1 & B2 & B3) end.
      cbn [obind].
      destruct (pred_ok n K L move stat (rkeep c) l (map (fun b => sadded (option T) b) bs) 0 Hok) as (l' & -> & P1 & P2).
      { rewrite map_length. congruence. }
      { apply Forall_map, Forall_forall. intros b Hb. rewrite Forall_forall in B2. destruct (B2 b Hb) as (_ & _ & _ & _ & H5 & H6). split; [exact H5|].
        intros x Hx. destruct (H6 x Hx) as (i & z & Hi & Hzz & ->). destruct (nth_error l i) eqn:E; [|apply nth_error_None in E; lia].
        destruct (nth_error (hZ s) z) eqn:E'; [discriminate|apply nth_error_None in E'; lia]. }
      cbn [obind]. eexists _, _, 0. split; [reflexivity|]. split; [|split; [|rewrite QcN_0; cbn [heard]; rewrite QcN_0]].
      * unfold hinv. cbn [hRb hSlots hZ rpf pset effT effPct]. split; [congruence|]. split; [rewrite map_length; exact B1|]. split; [exact P2|].
        split; [|split; [|auto]].
        -- apply Forall_map, Forall_forall. intros b Hb. rewrite Forall_forall in B2, B3. destruct (B2 b Hb) as (C1 & _). unfold oku. cbn. rewrite (B3 b Hb), C1.
           split; [reflexivity|]. split; [intros z []|cbn; lia].
        -- intros _. apply Forall_map. eapply Forall_impl; [|exact B3]. cbn. auto.
      * clear - HK HLW. qclra.
      * replace (K + QcN L * W + 0 * W)%Qc with (K + QcN L * W + 0 * (1 + W))%Qc by ring. apply Qcle_refl.
    + cbn [obind].
      destruct (pred_ok n K 0 move stat (rkeep c) l (map (fun b => sadded (option T) b) (zip as_slot (hSlots s) l)) 0 Hok) as (l' & -> & P1 & P2).
      { rewrite map_length. congruence. }
      { apply Forall_map, Forall_forall. intros b Hb. apply zip_in in Hb as (a & p & _ & _ & ->). cbn. split; [lia|]. intros x []. }
      cbn [obind]. eexists _, _, L. split; [reflexivity|]. rewrite QcN_0 in *. cbn [heard]. rewrite QcN_0. split; [|split].
      * unfold hinv. cbn [hRb hSlots hZ rpf pset effT effPct].
        split; [congruence|]. split; [rewrite map_length; exact Lz|]. split; [exact P2|]. rewrite Forall_forall in Hus.
        split; [|split; [|auto]].
        -- apply Forall_map, Forall_forall. intros b Hb. apply zip_in in Hb as (a & p & Ha & _ & ->). destruct (Hus a Ha) as (U1 & U2 & U3). unfold oku. cbn. auto.
        -- intros Hf. specialize (Hp Hf). rewrite Forall_forall in Hp. apply Forall_map, Forall_forall. intros b Hb. apply zip_in in Hb as (a & p & Ha & _ & ->). cbn. auto.
      * replace (K + 0 * W)%Qc with K by ring. exact HK.
      * replace (K + 0 * W + QcN L * W)%Qc with (K + QcN L * W + 0 * (1 + W))%Qc by ring. apply Qcle_refl.
  - unfold hupdate. destruct zs as [|z zs].
    + cbn in Hc. destruct Hc as [-> _]. eexists _, K, L. split; [reflexivity|]. split; [|split; [exact HK|]].
      * unfold hinv. cbn [hRb hSlots hZ rpf]. split; [exact L1|]. split; [exact L2|]. split; [exact Hok|]. split; [|auto].
        specialize (Hp eq_refl). rewrite Forall_forall in Hp, Hus |- *. intros a Ha. destruct (Hus a Ha) as (U1 & _). unfold oku. rewrite (Hp a Ha). split; [exact U1|].
        split; [intros z []|cbn; lia].
      * cbn [heard length Nat.add]. rewrite QcN_0. replace (0 * (1 + W))%Qc with 0%Qc by ring. rewrite Qcplus_0_r. apply Qcle_refl.
    + destruct (upd_ok n K (z :: zs) (pset (rpf (hRb s))) (hSlots s) ltac:(discriminate) Hok ltac:(congruence)) as (l & ss & -> & La & Lb & Fa & Fb).
      { eapply Forall_impl; [|exact Hus]. intros a (U1 & _). exact U1. }
      cbn [obind fst snd].
      destruct (finish_ok (okm (K + QcN (length (z :: zs)))) n c u (RB (PF l (effT (rpf (hRb s))) (effPct (rpf (hRb s)))) (S (rupd (hRb s))) (rmeas (hRb s) + length (z :: zs)) (rocc (hRb s))))
        as (b & Eb & Lc & Fc & Hb1 & Hb2); cbn [rpf pset effT effPct]; auto; [congruence|eapply Hu; reflexivity|].
      rewrite Eb. cbn [obind]. eexists _, _, (length (z :: zs)). split; [reflexivity|]. split; [|split].
      * unfold hinv. cbn [hRb hSlots hZ]. split; [exact Lc|]. split; [congruence|]. split; [exact Fc|]. split; [exact Fb|]. split; [discriminate|auto].
      * assert (A := QcN_nonneg (length (z :: zs))). clear - A HK. qclra.
      * cbn [heard]. rewrite Nat.add_0_r. set (q := QcN (length (z :: zs))) in *. replace (q * (1 + W))%Qc with (q + q * W)%Qc by ring. clear - HLW. qclra.
  - eexists _, K, L. split; [reflexivity|]. split; [|split; [exact HK|]].
    + unfold hinv. cbn [hRb hSlots hZ rpf setEffectiveParticleCountThreshold pset effT effPct].
      split; [exact L1|]. split; [exact L2|]. split; [exact Hok|]. split; [exact Hus|]. split; [exact Hp|]. split; discriminate.
    + cbn [heard]. rewrite QcN_0. replace (0 * (1 + W))%Qc with 0%Qc by ring. rewrite Qcplus_0_r. apply Qcle_refl.
Qed.

Lemma heard_cons : forall (k : hcall Pose M T) ks, heard (k :: ks) = heard [k] + heard ks.
Proof. intros [ch mv st|zs u|t] ks; cbn; lia. Qed.

Lemma run_from : forall g0 c n ks K L pend s0, 0 < n -> (0 <= K)%Qc -> hdraws_ok ks -> hcalm pend ks -> hinv n K L pend s0 ->
  exists s K' L' pend', hrun sn cf o g0 c s0 ks = Val s /\ hinv n K' L' pend' s /\ (0 <= K')%Qc /\ (K' + QcN L' * W <= K + QcN L * W + QcN (heard ks) * (1 + W))%Qc.
Proof.
  intros g0 c n ks. induction ks as [|k ks IH]; intros K L pend s0 Hn HK Hd Hc S0; cbn [hrun].
  { exists s0, K, L, pend. split; [reflexivity|]. split; [exact S0|]. split; [exact HK|]. cbn [heard]. rewrite QcN_0. replace (0 * (1 + W))%Qc with 0%Qc by ring. rewrite Qcplus_0_r. apply Qcle_refl. }
  destruct (call_ok g0 c n K L pend s0 k Hn HK S0) as (s1 & K1 & L1 & -> & S1 & HK1 & B1).
  - destruct k as [ch mv st|[|z zs] u|t]; cbn in Hc |- *; tauto.
  - intros zs u ->. apply (Hd zs u). now left.
  - cbn [obind]. edestruct (fun A B => IH _ _ _ s1 Hn HK1 A B S1) as (s & K' & L' & pend' & E & S & HK' & B).
    + intros zs u Hin. apply (Hd zs u). now right.
    + destruct k as [ch mv st|[|z zs] u|t]; cbn in Hc |- *; tauto.
    + exists s, K', L', pend'. split; [exact E|]. split; [exact S|]. split; [exact HK'|]. rewrite heard_cons, QcN_add.
      replace ((QcN (heard [k]) + QcN (heard ks)) * (1 + W))%Qc with (QcN (heard [k]) * (1 + W) + QcN (heard ks) * (1 + W))%Qc by ring. clear - B B1. qclra.
Qed.

Theorem phd_run : forall g0 c n x0 t ks, 0 < n -> hdraws_ok ks -> hcalm false ks ->
  exists s, hrun sn cf o g0 c (hf_new n x0) (HThreshold t :: ks) = Val s /\ length (pset (rpf (hRb s))) = n /\
  hall_maps (QcN (heard ks) * (1 + W)) s.
Proof.
  intros g0 c n x0 t ks Hn Hd Hc. cbn [hrun hdo obind].
  set (s0 := HF _ _ _).
  assert (S0 : hinv n 0 0 false s0).
  { unfold hinv, s0. cbn [hRb hSlots hZ hf_new rpf setEffectiveParticleCountThreshold pset effT effPct rb_new]. cbn. rewrite repeat_length, !map_length, seq_length.
    split; [reflexivity|]. split; [reflexivity|]. split; [|split; [|split; [|split; discriminate]]].
    - apply Forall_forall. intros p Hp. apply in_map_iff in Hp as (q & <- & Hq). apply in_map_iff in Hq as (i & <- & Hi). apply in_seq in Hi.
      exists [], 1%Qc. cbn. split; [reflexivity|]. split; [split; [intros lm v []|apply Qcle_refl]|].
      destruct (Qclt_le_dec 1 0) as [H|_]; [now vm_compute in H|]. split; [reflexivity|]. split; [reflexivity|]. lia.
    - apply Forall_forall. intros u Hin. apply repeat_spec in Hin. subst. unfold oku. cbn. split; [reflexivity|]. split; [intros z []|lia].
    - intros _. apply Forall_forall. intros u Hin. apply repeat_spec in Hin. now subst. }
  destruct (run_from g0 c n ks 0%Qc 0 false s0 Hn ltac:(apply Qcle_refl) Hd Hc S0) as (s & K' & L' & p' & E & S & HK & B).
  exists s. split; [exact E|]. split; [apply S|]. destruct S as (_ & _ & Hok & _). intros p Hp. rewrite Forall_forall in Hok.
  destruct (Hok p Hp) as (mix & w & E1 & (M1 & M2) & E3 & E4 & _). exists mix, w. split; [exact E1|]. split; [exact M1|]. split; [|auto].
  destruct Hcf as [HW _]. assert (A : (0 <= QcN L' * W)%Qc) by (apply RfsProofs.qmul_nonneg; [apply QcN_nonneg|exact HW]).
  rewrite QcN_0 in B. replace (0 + 0 * W)%Qc with 0%Qc in B by ring. clear - A B M2. qclra.
Qed.
End Run.
