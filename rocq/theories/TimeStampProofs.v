From Coq Require Import ZArith QArith Qround Bool List Lia.
From Coq Require Import ZifyBool.
From Verif Require Import Base TimeStampModel TimeStampSpec.
Import ListNotations.
Open Scope Z_scope.
Ltac Zify.zify_post_hook ::= Z.to_euclidean_division_equations.

Lemma wrap32_id : forall z, fits32 z -> wrap32 z = z.
Proof. unfold fits32, wrap32; intros z H. rewrite Z.mod_small; lia. Qed.

Lemma wrap32_fits : forall z, fits32 (wrap32 z).
Proof.
  unfold fits32, wrap32; intros z.
  pose proof (Z.mod_pos_bound (z + 2 ^ 31) (2 ^ 32)). lia.
Qed.

Lemma wrap32_eq_iff : forall z, wrap32 z = z <-> fits32 z.
Proof.
  intros z; split; intros H.
  - rewrite <- H. apply wrap32_fits.
  - apply wrap32_id; assumption.
Qed.

Lemma int32_val : forall z, fits32 z -> int32 z = Val z.
Proof.
  unfold fits32, int32, in32, INT32_MIN, INT32_MAX; intros z H.
  replace ((- 2 ^ 31 <=? z) && (z <=? 2 ^ 31 - 1)) with true by lia. reflexivity.
Qed.

Lemma int32_ub : forall z, ~ fits32 z -> int32 z = UB IntOverflow.
Proof.
  unfold fits32, int32, in32, INT32_MIN, INT32_MAX; intros z H.
  replace ((- 2 ^ 31 <=? z) && (z <=? 2 ^ 31 - 1)) with false by lia. reflexivity.
Qed.

Lemma int32_inv : forall z v, int32 z = Val v -> v = z /\ fits32 z.
Proof.
  unfold fits32, int32, in32, INT32_MIN, INT32_MAX; intros z v H.
  destruct ((- 2 ^ 31 <=? z) && (z <=? 2 ^ 31 - 1)) eqn:E; inversion H; subst; lia.
Qed.

Lemma total_div : forall s ns, (s * 1000000000 + ns) / 1000000000 = s + ns / 1000000000.
Proof. intros. rewrite Z.add_comm, Z.div_add by lia. lia. Qed.

Lemma normalize_exact : forall s ns, fits32 s -> fits32 ns ->
  fits32 (s + ns / 1000000000) ->
  normalize (TS s ns) = Val (TS (s + ns / 1000000000) (ns mod 1000000000)).
Proof.
  unfold normalize, NS, fits32; intros s ns Hs Hn Hq; cbn [sec nsec].
  rewrite (wrap32_id (Z.rem ns 1000000000)) by (unfold fits32; lia).
  destruct (Z.rem ns 1000000000 <? 0) eqn:E.
  - rewrite (wrap32_id (s + _)) by (unfold fits32; lia).
    rewrite int32_val by (unfold fits32; lia).
    cbn [obind]. rewrite wrap32_id by (unfold fits32; lia).
    f_equal; f_equal; lia.
  - rewrite (wrap32_id (s + _)) by (unfold fits32; lia).
    f_equal; f_equal; lia.
Qed.

Lemma normalize_normal : forall s ns t, fits32 s -> fits32 ns ->
  normalize (TS s ns) = Val t -> normal t.
Proof.
  unfold normalize, NS, normal; intros s ns t Hs Hn; cbn [sec nsec].
  rewrite (wrap32_id (Z.rem ns 1000000000)) by (unfold fits32 in *; lia).
  destruct (Z.rem ns 1000000000 <? 0) eqn:E.
  - intros H. apply obind_val in H as [v [Hv H]].
    apply int32_inv in Hv as [-> Hv]. inversion H; subst; clear H.
    cbn [sec nsec]. rewrite (wrap32_id (Z.rem _ _ + _)) by (unfold fits32 in *; lia).
    unfold fits32 in *. lia.
  - intros H; inversion H; subst; cbn [sec nsec].
    pose proof (wrap32_fits (s + Z.quot ns 1000000000)). unfold fits32 in *; lia.
Qed.

Lemma make_exact_iff_l : forall s ns, fits32 s -> fits32 ns ->
  (exists t, make s ns = Val t /\ normal t /\ nanos t = s * 1000000000 + ns)
  <-> representable (s * 1000000000 + ns).
Proof.
  unfold representable; intros s ns Hs Hn; rewrite total_div; split.
  - intros [t [Hm [Hnorm He]]]. unfold normal, nanos in *.
    destruct Hnorm as [Hf Hr].
    assert (sec t = s + ns / 1000000000) by lia.
    unfold fits32; lia.
  - intros Hq. eexists; split; [apply normalize_exact; assumption|].
    unfold normal, nanos, fits32 in *; cbn [sec nsec]; lia.
Qed.

Lemma normalize_normal_id : forall t, normal t -> normalize t = Val t.
Proof.
  intros [s n] [H1 H2]; cbn [sec nsec] in *.
  rewrite normalize_exact; unfold fits32 in *; try lia.
  f_equal; f_equal; lia.
Qed.

Definition add_fits (a b : timestamp) : Prop :=
  fits32 (sec a + sec b) /\ representable (nanos a + nanos b).
Definition sub_fits (a b : timestamp) : Prop :=
  fits32 (sec a - sec b) /\ representable (nanos a - nanos b).

Lemma nanos_inj : forall a b, normal a -> normal b -> nanos a = nanos b -> a = b.
Proof.
  intros [s n] [s' n'] [H1 H2] [H3 H4]; unfold nanos; cbn [sec nsec] in *; intros.
  f_equal; lia.
Qed.

Lemma add_assign_exact : forall a b, normal a -> normal b ->
  fits32 (sec a + sec b) -> representable (nanos a + nanos b) ->
  exists c, ts_add_assign a b = Val c /\ normal c /\ nanos c = nanos a + nanos b.
Proof.
  intros a b [Ha1 Ha2] [Hb1 Hb2] Hs Hr. unfold ts_add_assign.
  rewrite int32_val by assumption. cbn [obind].
  rewrite int32_val by (unfold fits32; lia). cbn [obind].
  unfold representable, nanos in Hr.
  rewrite normalize_exact; try (unfold fits32 in *; lia).
  eexists; split; [reflexivity|]. unfold normal, nanos, fits32 in *; cbn [sec nsec]; lia.
Qed.

Lemma sub_assign_exact : forall a b, normal a -> normal b ->
  fits32 (sec a - sec b) -> representable (nanos a - nanos b) ->
  exists c, ts_sub_assign a b = Val c /\ normal c /\ nanos c = nanos a - nanos b.
Proof.
  intros a b [Ha1 Ha2] [Hb1 Hb2] Hs Hr. unfold ts_sub_assign.
  rewrite int32_val by assumption. cbn [obind].
  rewrite int32_val by (unfold fits32; lia). cbn [obind].
  unfold representable, nanos in Hr.
  rewrite normalize_exact; try (unfold fits32 in *; lia).
  eexists; split; [reflexivity|]. unfold normal, nanos, fits32 in *; cbn [sec nsec]; lia.
Qed.

Lemma add_eq_assign : forall a b, normal a -> normal b -> ts_add a b = ts_add_assign a b.
Proof.
  intros a b Ha Hb. unfold ts_add, ts_add_assign, make.
  destruct (int32 (sec a + sec b)) as [s|u|] eqn:Es; cbn [obind]; try reflexivity.
  destruct (int32 (nsec a + nsec b)) as [n|u|] eqn:En; cbn [obind]; try reflexivity.
  apply int32_inv in Es as [-> Hs]. apply int32_inv in En as [-> Hn].
  destruct (normalize _) as [t|u|] eqn:E; cbn [obind]; try reflexivity.
  apply normalize_normal_id. exact (normalize_normal _ _ _ Hs Hn E).
Qed.

Lemma sub_eq_assign : forall a b, normal a -> normal b -> ts_sub a b = ts_sub_assign a b.
Proof.
  intros a b Ha Hb. unfold ts_sub, ts_sub_assign, make.
  destruct (int32 (sec a - sec b)) as [s|u|] eqn:Es; cbn [obind]; try reflexivity.
  destruct (int32 (nsec a - nsec b)) as [n|u|] eqn:En; cbn [obind]; try reflexivity.
  apply int32_inv in Es as [-> Hs]. apply int32_inv in En as [-> Hn].
  destruct (normalize _) as [t|u|] eqn:E; cbn [obind]; try reflexivity.
  apply normalize_normal_id. exact (normalize_normal _ _ _ Hs Hn E).
Qed.

Lemma add_exact_iff_l : forall a b, normal a -> normal b ->
  (exists c, ts_add a b = Val c /\ normal c /\ nanos c = nanos a + nanos b)
  <-> (fits32 (sec a + sec b) /\ representable (nanos a + nanos b)).
Proof.
  intros a b Ha Hb. rewrite add_eq_assign by assumption. split.
  - intros [c [Hc [[Hn1 Hn2] He]]]. unfold ts_add_assign in Hc.
    apply obind_val in Hc as [s [Hs Hc]]. apply int32_inv in Hs as [-> Hs].
    split; [assumption|]. unfold representable. rewrite <- He.
    unfold nanos. rewrite total_div. rewrite Z.div_small by lia. rewrite Z.add_0_r. exact Hn1.
  - intros [H1 H2]. apply add_assign_exact; assumption.
Qed.

Lemma sub_exact_iff_l : forall a b, normal a -> normal b ->
  (exists c, ts_sub a b = Val c /\ normal c /\ nanos c = nanos a - nanos b)
  <-> (fits32 (sec a - sec b) /\ representable (nanos a - nanos b)).
Proof.
  intros a b Ha Hb. rewrite sub_eq_assign by assumption. split.
  - intros [c [Hc [[Hn1 Hn2] He]]]. unfold ts_sub_assign in Hc.
    apply obind_val in Hc as [s [Hs Hc]]. apply int32_inv in Hs as [-> Hs].
    split; [assumption|]. unfold representable. rewrite <- He.
    unfold nanos. rewrite total_div. rewrite Z.div_small by lia. rewrite Z.add_0_r. exact Hn1.
  - intros [H1 H2]. apply sub_assign_exact; assumption.
Qed.

Lemma add_ub_iff_l : forall a b, normal a -> normal b ->
  (ts_add a b = UB IntOverflow <-> ~ fits32 (sec a + sec b)).
Proof.
  intros a b Ha Hb. rewrite add_eq_assign by assumption.
  destruct Ha as [Ha1 Ha2], Hb as [Hb1 Hb2]. unfold ts_add_assign.
  split.
  - intros H Hf. rewrite int32_val in H by assumption. cbn [obind] in H.
    rewrite int32_val in H by (unfold fits32; lia). cbn [obind] in H.
    unfold normalize, NS in H; cbn [sec nsec] in H.
    rewrite (wrap32_id (Z.rem _ _)) in H by (unfold fits32; lia).
    destruct (_ <? 0) eqn:E in H; [lia|discriminate].
  - intros Hf. rewrite int32_ub by assumption. reflexivity.
Qed.

(** The remaining case of +: the carry wraps silently. *)
Lemma add_wrap_l : forall a b, normal a -> normal b ->
  fits32 (sec a + sec b) -> ~ representable (nanos a + nanos b) ->
  exists c, ts_add a b = Val c /\ normal c /\
    nanos c = nanos a + nanos b - 2 ^ 32 * 1000000000.
Proof.
  intros a b Ha Hb Hs Hr. rewrite add_eq_assign by assumption.
  destruct Ha as [Ha1 Ha2], Hb as [Hb1 Hb2]. unfold ts_add_assign.
  rewrite int32_val by assumption. cbn [obind].
  rewrite int32_val by (unfold fits32; lia). cbn [obind].
  unfold normalize, NS; cbn [sec nsec].
  rewrite (wrap32_id (Z.rem _ _)) by (unfold fits32; lia).
  destruct (_ <? 0) eqn:E; [lia|].
  eexists; split; [reflexivity|].
  unfold representable, nanos, fits32 in *.
  assert (sec a + sec b = 2 ^ 31 - 1) by lia.
  assert (Z.quot (nsec a + nsec b) 1000000000 = 1) by lia.
  rewrite H0, H.
  unfold normal, nanos, wrap32; cbn [sec nsec].
  replace ((2 ^ 31 - 1 + 1 + 2 ^ 31) mod 2 ^ 32 - 2 ^ 31) with (- 2 ^ 31) by reflexivity.
  lia.
Qed.

Lemma sub_ub_iff_l : forall a b, normal a -> normal b ->
  (ts_sub a b = UB IntOverflow <->
   ~ (fits32 (sec a - sec b) /\ representable (nanos a - nanos b))).
Proof.
  intros a b Ha Hb. split.
  - intros H Hc. apply sub_exact_iff_l in Hc; [|assumption..].
    destruct Hc as [c [Hc _]]. congruence.
  - intros H. rewrite sub_eq_assign by assumption.
    destruct Ha as [Ha1 Ha2], Hb as [Hb1 Hb2]. unfold ts_sub_assign.
    assert (Hd : fits32 (sec a - sec b) \/ ~ fits32 (sec a - sec b)) by (unfold fits32; lia).
    destruct Hd as [Hd|Hd].
    + rewrite int32_val by assumption. cbn [obind].
      rewrite int32_val by (unfold fits32; lia). cbn [obind].
      unfold representable, nanos, fits32 in H, Hd.
      assert (sec a - sec b = - 2 ^ 31) by lia.
      assert (nsec a - nsec b < 0) by lia.
      unfold normalize, NS; cbn [sec nsec].
      rewrite (wrap32_id (Z.rem _ _)) by (unfold fits32; lia).
      destruct (_ <? 0) eqn:E; [|lia].
      rewrite (wrap32_id (sec a - sec b + _)) by (unfold fits32; lia).
      rewrite int32_ub by (unfold fits32; lia). reflexivity.
    + rewrite int32_ub by assumption. reflexivity.
Qed.

Lemma step_exact : forall t o, normal t -> op_ok o ->
  sec_ok (nanos t) o -> representable (ideal_step (nanos t) o) ->
  exists t', ts_step t o = Val t' /\ normal t' /\ nanos t' = ideal_step (nanos t) o.
Proof.
  intros t o Ht Ho Hs Hr.
  assert (Hsec : nanos t / 1000000000 = sec t).
  { unfold nanos. rewrite total_div. destruct Ht. rewrite Z.div_small; lia. }
  destruct o as [b|b|s ns]; cbn [ts_step ideal_step op_ok sec_ok] in *.
  - rewrite Hsec in Hs. apply add_assign_exact; assumption.
  - rewrite Hsec in Hs. apply sub_assign_exact; assumption.
  - destruct Ho. apply make_exact_iff_l; assumption.
Qed.

Lemma run_exact : forall ops t, normal t -> Forall op_ok ops ->
  in_range (nanos t) ops ->
  exists t', ts_run t ops = Val t' /\ normal t' /\
             nanos t' = fold_left ideal_step ops (nanos t).
Proof.
  induction ops as [|o ops IH]; intros t Ht Ho Hr; cbn.
  - eauto.
  - inversion Ho; subst. destruct Hr as [Hs [Hrep Hr]].
    destruct (step_exact t o Ht H1 Hs Hrep) as [t1 [E1 [N1 V1]]].
    rewrite E1. cbn [obind]. rewrite <- V1 in Hr.
    destruct (IH t1 N1 H2 Hr) as [t2 [E2 [N2 V2]]].
    exists t2. rewrite V1 in V2. auto.
Qed.

(** Every value the API ever returns is normal, even after a silent wrap. *)
Lemma step_normal : forall t o t', normal t -> op_ok o ->
  ts_step t o = Val t' -> normal t'.
Proof.
  intros t o t' Ht Ho H.
  destruct o as [b|b|s ns]; cbn [ts_step op_ok] in *.
  - unfold ts_add_assign in H. apply obind_val in H as [s [Hs H]].
    apply obind_val in H as [n [Hn H]].
    apply int32_inv in Hs as [-> Hs]. apply int32_inv in Hn as [-> Hn].
    exact (normalize_normal _ _ _ Hs Hn H).
  - unfold ts_sub_assign in H. apply obind_val in H as [s [Hs H]].
    apply obind_val in H as [n [Hn H]].
    apply int32_inv in Hs as [-> Hs]. apply int32_inv in Hn as [-> Hn].
    exact (normalize_normal _ _ _ Hs Hn H).
  - destruct Ho as [H1 H2]. exact (normalize_normal _ _ _ H1 H2 H).
Qed.

Lemma run_normal : forall ops t t', normal t -> Forall op_ok ops ->
  ts_run t ops = Val t' -> normal t'.
Proof.
  induction ops as [|o ops IH]; intros t t' Ht Ho H; cbn in H.
  - inversion H; subst; assumption.
  - inversion Ho; subst. apply obind_val in H as [t1 [E1 H]].
    eapply IH; [|eassumption..]. eapply step_normal; eauto.
Qed.

(** Comparisons *)
Lemma ltb_nanos : forall a b, normal a -> normal b ->
  ts_ltb a b = (nanos a <? nanos b).
Proof.
  intros a b [Ha1 Ha2] [Hb1 Hb2]. unfold ts_ltb, nanos.
  destruct (sec a <? sec b) eqn:E1; [lia|].
  destruct ((sec a =? sec b) && (nsec a <? nsec b)) eqn:E2; lia.
Qed.
Lemma leb_nanos : forall a b, normal a -> normal b ->
  ts_leb a b = (nanos a <=? nanos b).
Proof.
  intros a b [Ha1 Ha2] [Hb1 Hb2]. unfold ts_leb, nanos.
  destruct (sec a <? sec b) eqn:E1; [lia|].
  destruct ((sec a =? sec b) && (nsec a <=? nsec b)) eqn:E2; lia.
Qed.
Lemma gtb_nanos : forall a b, normal a -> normal b ->
  ts_gtb a b = (nanos b <? nanos a).
Proof.
  intros a b [Ha1 Ha2] [Hb1 Hb2]. unfold ts_gtb, nanos.
  destruct (sec b <? sec a) eqn:E1; [lia|].
  destruct ((sec a =? sec b) && (nsec b <? nsec a)) eqn:E2; lia.
Qed.
Lemma geb_nanos : forall a b, normal a -> normal b ->
  ts_geb a b = (nanos b <=? nanos a).
Proof.
  intros a b [Ha1 Ha2] [Hb1 Hb2]. unfold ts_geb, nanos.
  destruct (sec b <? sec a) eqn:E1; [lia|].
  destruct ((sec a =? sec b) && (nsec b <=? nsec a)) eqn:E2; lia.
Qed.
Lemma eqb_nanos : forall a b, normal a -> normal b ->
  ts_eqb a b = (nanos a =? nanos b).
Proof. intros a b [Ha1 Ha2] [Hb1 Hb2]. unfold ts_eqb, nanos. lia. Qed.
Lemma neb_nanos : forall a b, normal a -> normal b ->
  ts_neb a b = negb (nanos a =? nanos b).
Proof. intros a b [Ha1 Ha2] [Hb1 Hb2]. unfold ts_neb, nanos. lia. Qed.

Lemma compare_agrees_l : forall a b, normal a -> normal b ->
  (ts_ltb a b = true <-> nanos a < nanos b) /\
  (ts_leb a b = true <-> nanos a <= nanos b) /\
  (ts_gtb a b = true <-> nanos a > nanos b) /\
  (ts_geb a b = true <-> nanos a >= nanos b) /\
  (ts_eqb a b = true <-> nanos a = nanos b) /\
  (ts_neb a b = true <-> nanos a <> nanos b).
Proof.
  intros a b Ha Hb.
  rewrite ltb_nanos, leb_nanos, gtb_nanos, geb_nanos, eqb_nanos, neb_nanos by assumption.
  lia.
Qed.

(** the laws below hold for all stamps, normalised or not *)
Lemma trichotomy_l : forall a b,
  (ts_ltb a b = true /\ ts_eqb a b = false /\ ts_gtb a b = false) \/
  (ts_ltb a b = false /\ ts_eqb a b = true /\ ts_gtb a b = false) \/
  (ts_ltb a b = false /\ ts_eqb a b = false /\ ts_gtb a b = true).
Proof.
  intros a b. unfold ts_ltb, ts_eqb, ts_gtb.
  destruct (sec a <? sec b) eqn:E1, (sec b <? sec a) eqn:E2,
    ((sec a =? sec b) && (nsec a <? nsec b)) eqn:E3,
    ((sec a =? sec b) && (nsec b <? nsec a)) eqn:E4,
    ((sec a =? sec b) && (nsec a =? nsec b)) eqn:E5; try lia.
Qed.

Lemma boolean_combinations_l : forall a b,
  ts_leb a b = (ts_ltb a b || ts_eqb a b) /\
  ts_geb a b = (ts_gtb a b || ts_eqb a b) /\
  ts_neb a b = negb (ts_eqb a b) /\
  ts_gtb a b = ts_ltb b a /\ ts_geb a b = ts_leb b a.
Proof.
  intros a b. unfold ts_leb, ts_geb, ts_neb, ts_gtb, ts_ltb, ts_eqb.
  rewrite (Z.eqb_sym (sec b) (sec a)).
  repeat split;
  repeat match goal with |- context [if ?c then _ else _] => destruct c eqn:? end; lia.
Qed.

Lemma lt_trans_l : forall a b c,
  ts_ltb a b = true -> ts_ltb b c = true -> ts_ltb a c = true.
Proof.
  intros a b c. unfold ts_ltb.
  repeat match goal with |- context [if ?c then _ else _] => destruct c eqn:? end; lia.
Qed.

(** Algebra *)
Lemma add_comm_l : forall a b, ts_add a b = ts_add b a.
Proof.
  intros a b. unfold ts_add. rewrite (Z.add_comm (sec a)), (Z.add_comm (nsec a)). reflexivity.
Qed.

Lemma add_val_cases : forall a b c, normal a -> normal b -> ts_add a b = Val c ->
  normal c /\ fits32 (sec a + sec b) /\
  (nanos c = nanos a + nanos b \/ nanos c = nanos a + nanos b - 2 ^ 32 * 1000000000).
Proof.
  intros a b c Ha Hb H.
  assert (Hs : fits32 (sec a + sec b)).
  { rewrite add_eq_assign in H by assumption. unfold ts_add_assign in H.
    apply obind_val in H as [s [Hs H]]. apply int32_inv in Hs. tauto. }
  assert (D : representable (nanos a + nanos b) \/ ~ representable (nanos a + nanos b))
    by (unfold representable, fits32; lia).
  destruct D as [D|D].
  - destruct (proj2 (add_exact_iff_l a b Ha Hb) (conj Hs D)) as [c' [E [N V]]].
    rewrite E in H; inversion H; subst. auto.
  - destruct (add_wrap_l a b Ha Hb Hs D) as [c' [E [N V]]].
    rewrite E in H; inversion H; subst. auto.
Qed.

Lemma sub_val : forall a b c, normal a -> normal b -> ts_sub a b = Val c ->
  normal c /\ nanos c = nanos a - nanos b.
Proof.
  intros a b c Ha Hb H.
  assert (D : (fits32 (sec a - sec b) /\ representable (nanos a - nanos b))).
  { assert (D : (fits32 (sec a - sec b) /\ representable (nanos a - nanos b)) \/
                ~ (fits32 (sec a - sec b) /\ representable (nanos a - nanos b)))
      by (unfold representable, fits32; lia).
    destruct D as [D|D]; [assumption|].
    apply sub_ub_iff_l in D; [|assumption..]. congruence. }
  apply sub_exact_iff_l in D; [|assumption..].
  destruct D as [c' [E [N V]]]. rewrite E in H; inversion H; subst. auto.
Qed.

Lemma add_sub_l : forall a b c d, normal a -> normal b ->
  ts_add a b = Val c -> ts_sub c b = Val d -> d = a.
Proof.
  intros a b c d Ha Hb Hc Hd.
  destruct (add_val_cases a b c Ha Hb Hc) as [Nc [Fs V]].
  destruct (sub_val c b d Nc Hb Hd) as [Nd Vd].
  apply nanos_inj; [assumption..|].
  destruct V as [V|V]; [lia|].
  (* silent wrap: the seconds difference then overflows, so - is UB *)
  exfalso.
  assert (~ (fits32 (sec c - sec b) /\ representable (nanos c - nanos b))) as Hn.
  { destruct Ha, Hb, Nc, Nd. unfold representable, nanos, fits32 in *. lia. }
  apply sub_ub_iff_l in Hn; [|assumption..]. congruence.
Qed.

Lemma sub_add_l : forall a b c, normal a -> normal b ->
  ts_sub a b = Val c -> fits32 (sec c + sec b) -> ts_add c b = Val a.
Proof.
  intros a b c Ha Hb Hc Hf.
  destruct (sub_val a b c Ha Hb Hc) as [Nc Vc].
  assert (R : representable (nanos c + nanos b)).
  { replace (nanos c + nanos b) with (nanos a) by lia. unfold representable, nanos.
    rewrite total_div. destruct Ha as [Ha1 Ha2]. rewrite Z.div_small by lia.
    rewrite Z.add_0_r. exact Ha1. }
  destruct (proj2 (add_exact_iff_l c b Nc Hb) (conj Hf R)) as [a' [E [N V]]].
  rewrite E. f_equal. apply nanos_inj; try assumption; lia.
Qed.

Lemma sub_self_l : forall a, normal a -> ts_sub a a = Val ts_zero.
Proof.
  intros a Ha.
  assert (H : fits32 (sec a - sec a) /\ representable (nanos a - nanos a)).
  { rewrite !Z.sub_diag. unfold representable, fits32. lia. }
  apply sub_exact_iff_l in H; [|assumption..]. destruct H as [c [E [N V]]].
  rewrite E. f_equal. apply nanos_inj; try assumption.
  - unfold normal, ts_zero; cbn; lia.
  - rewrite V. unfold nanos, ts_zero; cbn. lia.
Qed.

Lemma add_mono_l : forall a b c x y, normal a -> normal b -> normal c ->
  representable (nanos a + nanos c) -> representable (nanos b + nanos c) ->
  ts_add a c = Val x -> ts_add b c = Val y ->
  ts_ltb x y = ts_ltb a b.
Proof.
  intros a b c x y Ha Hb Hc Ra Rb Hx Hy.
  destruct (add_val_cases a c x Ha Hc Hx) as [Nx [Fx Vx]].
  destruct (add_val_cases b c y Hb Hc Hy) as [Ny [Fy Vy]].
  assert (Ex : nanos x = nanos a + nanos c).
  { destruct (proj2 (add_exact_iff_l a c Ha Hc) (conj Fx Ra)) as [c' [E [N V]]].
    congruence. }
  assert (Ey : nanos y = nanos b + nanos c).
  { destruct (proj2 (add_exact_iff_l b c Hb Hc) (conj Fy Rb)) as [c' [E [N V]]].
    congruence. }
  rewrite !ltb_nanos by assumption. lia.
Qed.

(** setTime(double) in exact arithmetic *)
Lemma Qtrunc_frac_bound : forall q : Q,
  (0 <= q)%Q -> (0 <= q - inject_Z (Qtrunc q))%Q /\ (q - inject_Z (Qtrunc q) < 1)%Q.
Proof.
  intros [n d]. unfold Qtrunc, Qle, Qlt, Qminus, Qplus, Qopp, inject_Z.
  cbn [Qnum Qden]. intros H. rewrite Pos.mul_1_r. 
  pose proof (Z.quot_rem' n (Z.pos d)). pose proof (Z.rem_bound_pos n (Z.pos d)). split; nia.
Qed.

Lemma Qtrunc_comp : forall p q : Q, (p == q)%Q -> Qtrunc p = Qtrunc q.
Proof.
  intros [a b] [c d]. unfold Qeq, Qtrunc; cbn [Qnum Qden]. intros H.
  assert (Hb : Z.quot (a * Z.pos d) (Z.pos b * Z.pos d) = Z.quot a (Z.pos b))
    by (apply Z.quot_mul_cancel_r; lia).
  assert (Hd : Z.quot (c * Z.pos b) (Z.pos d * Z.pos b) = Z.quot c (Z.pos d))
    by (apply Z.quot_mul_cancel_r; lia).
  rewrite <- Hb, <- Hd, H. f_equal. lia.
Qed.

Lemma Qtrunc_inject : forall z, Qtrunc (inject_Z z) = z.
Proof. intros z. unfold Qtrunc, inject_Z; cbn [Qnum Qden]. apply Z.quot_1_r. Qed.

Lemma Qtrunc_frac : forall (z : Z) (n : Z), 0 <= n < 1000000000 ->
  Qtrunc (inject_Z z + inject_Z n * (1 # 1000000000)) =
    (if (z <? 0) && negb (n =? 0) then z + 1 else z).
Proof.
  intros z n Hn. unfold Qtrunc, Qplus, Qmult, inject_Z; cbn [Qnum Qden].
  rewrite !Pos.mul_1_l, !Z.mul_1_r. 
  destruct ((z <? 0) && negb (n =? 0)) eqn:E; lia.
Qed.

Lemma setTime_getTime_l : forall t, normal t -> setTime (getTime t) = Val t.
Proof.
  intros [s n] [H1 H2]; cbn [sec nsec] in *. unfold setTime, getTime; cbn [sec nsec].
  assert (Hn : 0 <= n < 1000000000) by lia.
  rewrite (Qtrunc_frac s n Hn).
  set (ip := if (s <? 0) && negb (n =? 0) then s + 1 else s).
  assert (Hip : fits32 ip) by (unfold ip, fits32; destruct (_ && _) eqn:E; lia).
  rewrite int32_val by assumption. cbn [obind].
  assert (E : Qtrunc ((inject_Z s + inject_Z n * (1 # 1000000000) - inject_Z ip) * inject_Z NS)
              = (s - ip) * 1000000000 + n).
  { rewrite <- (Qtrunc_inject ((s - ip) * 1000000000 + n)). apply Qtrunc_comp.
    unfold NS, Z.sub. rewrite inject_Z_plus, inject_Z_mult, inject_Z_plus, inject_Z_opp.
    unfold Qminus.
    assert (K : (inject_Z 1000000000 * (1 # 1000000000) == 1)%Q) by reflexivity.
    transitivity ((inject_Z s - inject_Z ip) * inject_Z 1000000000
                  + inject_Z n * (inject_Z 1000000000 * (1 # 1000000000)))%Q; [ring|].
    rewrite K. ring. }
  rewrite E.
  rewrite int32_val.
  2:{ unfold ip, fits32; destruct (_ && _) eqn:E2; lia. }
  cbn [obind].
  rewrite normalize_exact; [| assumption | | ];
    unfold ip, fits32 in *; destruct (_ && _) eqn:E2; try lia; f_equal; f_equal; lia.
Qed.

Lemma Qtrunc_bound : forall q : Q,
  (-1 < q - inject_Z (Qtrunc q))%Q /\ (q - inject_Z (Qtrunc q) < 1)%Q.
Proof.
  intros [n d]. unfold Qtrunc, Qlt, Qminus, Qplus, Qopp, inject_Z.
  cbn [Qnum Qden]. rewrite Pos.mul_1_r.
  pose proof (Z.quot_rem' n (Z.pos d)).
  pose proof (Z.rem_bound_abs n (Z.pos d)). split; lia.
Qed.

Lemma Qtrunc_lt : forall (q : Q) (k : Z), 0 < k ->
  (- inject_Z k < q)%Q -> (q < inject_Z k)%Q -> - k < Qtrunc q < k.
Proof.
  intros [n d] k Hk. unfold Qtrunc, Qlt, Qopp, inject_Z; cbn [Qnum Qden].
  rewrite !Z.mul_1_r. intros H1 H2.
  pose proof (Z.quot_rem' n (Z.pos d)).
  pose proof (Z.rem_bound_abs n (Z.pos d)). nia.
Qed.

Lemma setTime_accurate_l : forall q t, setTime q = Val t ->
  normal t /\
  (-1 < q * inject_Z 1000000000 - inject_Z (nanos t))%Q /\
  (q * inject_Z 1000000000 - inject_Z (nanos t) < 1)%Q.
Proof.
  intros q t H. unfold setTime in H.
  apply obind_val in H as [s [Hs H]]. apply obind_val in H as [n [Hn H]].
  apply int32_inv in Hs as [-> Hs]. apply int32_inv in Hn as [-> Hn].
  set (ip := Qtrunc q) in *.
  set (fr := ((q - inject_Z ip) * inject_Z NS)%Q) in *.
  pose proof (normalize_normal _ _ _ Hs Hn H) as N. split; [assumption|].
  assert (Hb : - NS < Qtrunc fr < NS).
  { destruct (Qtrunc_bound q) as [B1 B2]. fold ip in B1, B2.
    apply Qtrunc_lt; [reflexivity| |]; unfold fr.
    - rewrite <- (Qmult_lt_r _ _ (inject_Z NS)) in B1 by reflexivity.
      eapply Qle_lt_trans; [|exact B1]. discriminate.
    - rewrite <- (Qmult_lt_r _ _ (inject_Z NS)) in B2 by reflexivity.
      eapply Qlt_le_trans; [exact B2|]. discriminate. }
  assert (E : nanos t = ip * NS + Qtrunc fr).
  { assert (R : fits32 (ip + Qtrunc fr / 1000000000)).
    { (* otherwise the decrement overflows *)
      unfold NS in *. destruct (Z_lt_dec (Qtrunc fr) 0) as [L|L].
      - assert (Hd : ip = - 2 ^ 31 \/ - 2 ^ 31 < ip) by (unfold fits32 in *; lia).
        destruct Hd as [Hd|Hd]; [|unfold fits32 in *; lia].
        exfalso. unfold normalize, NS in H; cbn [sec nsec] in H.
        rewrite (wrap32_id (Z.rem _ _)) in H by (unfold fits32; lia).
        destruct (Z.rem (Qtrunc fr) 1000000000 <? 0) eqn:EE; [|lia].
        rewrite (wrap32_id (ip + _)) in H by (unfold fits32; lia).
        rewrite int32_ub in H by (unfold fits32; lia). discriminate.
      - unfold fits32 in *; lia. }
    rewrite normalize_exact in H by assumption. inversion H; subst; clear H.
    unfold nanos, NS in *; cbn [sec nsec]. lia. }
  rewrite E. rewrite inject_Z_plus, inject_Z_mult.
  destruct (Qtrunc_bound fr) as [C1 C2].
  assert (K : (q * inject_Z 1000000000 - (inject_Z ip * inject_Z NS + inject_Z (Qtrunc fr))
               == fr - inject_Z (Qtrunc fr))%Q).
  { unfold fr, NS. ring. }
  rewrite K. auto.
Qed.

Lemma setTime_defined_l : forall q,
  (inject_Z (- 2 ^ 31) < q)%Q -> (q < inject_Z (2 ^ 31))%Q ->
  exists t, setTime q = Val t.
Proof.
  intros q H1 H2. unfold setTime.
  assert (Hip : - 2 ^ 31 < Qtrunc q < 2 ^ 31).
  { apply Qtrunc_lt; [reflexivity|exact H1|exact H2]. }
  rewrite int32_val by (unfold fits32; lia). cbn [obind].
  set (ip := Qtrunc q) in *.
  set (fr := ((q - inject_Z ip) * inject_Z NS)%Q) in *.
  assert (Hb : - NS < Qtrunc fr < NS).
  { destruct (Qtrunc_bound q) as [B1 B2]. fold ip in B1, B2.
    apply Qtrunc_lt; [reflexivity| |]; unfold fr.
    - rewrite <- (Qmult_lt_r _ _ (inject_Z NS)) in B1 by reflexivity.
      eapply Qle_lt_trans; [|exact B1]. discriminate.
    - rewrite <- (Qmult_lt_r _ _ (inject_Z NS)) in B2 by reflexivity.
      eapply Qlt_le_trans; [exact B2|]. discriminate. }
  unfold NS in Hb.
  rewrite int32_val by (unfold fits32; lia). cbn [obind].
  rewrite normalize_exact; unfold fits32; try lia. eauto.
Qed.
