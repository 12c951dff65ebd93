(** Proofs about the scalar Kalman filter and the control flow of correct. *)
From Coq Require Import List Bool Arith ZArith QArith Qcanon Lia.
From Verif Require Import Base ListUtil QcLra Loop KalmanModel KalmanSpec.
Import ListNotations.
Local Open Scope Qc_scope.

Lemma half_sum : forall x : Qc, (x + x) / Q2Qc 2 = x.
Proof. intros x. unfold Qcdiv. replace (x + x) with (x * Q2Qc 2).
  - rewrite <- Qcmult_assoc, Qcmult_inv_r; [ring|]. intro H. discriminate H.
  - replace (Q2Qc 2) with (1 + 1) by (apply Qc_is_canon; reflexivity). ring.
Qed.

Lemma pos_ne : forall x : Qc, 0 < x -> x <> 0.
Proof. intros x H ->. discriminate H. Qed.

Lemma inv_pos : forall x : Qc, 0 < x -> 0 < / x.
Proof.
  intros x H. destruct (Qclt_le_dec 0 (/ x)) as [G|G]; [exact G|exfalso].
  pose proof (Qcmult_inv_r x (pos_ne x H)) as E.
  assert (x * / x <= 0).
  { replace 0 with (x * 0) by ring. rewrite (Qcmult_comm x), (Qcmult_comm x).
    apply Qcmult_le_compat_r; [exact G|apply Qclt_le_weak; exact H]. }
  rewrite E in H0. apply H0. reflexivity.
Qed.

(** The corrected landmark in closed form. *)
Lemma update1_eq : forall c pose m P z, 0 < P + g_var pose + c_R c ->
  update1 (G1 m P) (snd (measure1 c pose (G1 m P))) (z - (m - g_mean pose))
  = G1 (m + P * / (P + g_var pose + c_R c) * (z + g_mean pose - m))
       ((g_var pose + c_R c) * (P * / (P + g_var pose + c_R c))).
Proof.
  intros c pose m P z HS. unfold update1, measure1. cbn [snd e_H e_var e_mean g_mean g_var].
  rewrite half_sum. set (S := P + g_var pose + c_R c) in *.
  assert (E : S * / S = 1) by (apply Qcmult_inv_r, pos_ne, HS).
  f_equal.
  - ring.
  - replace (g_var pose + c_R c) with (S - P) by (unfold S; ring).
    replace ((S - P) * (P * / S)) with ((S * / S) * P - P * / S * P) by ring.
    rewrite E. ring.
Qed.

Lemma correct1_cases : forall lik ck c pose z m P old zl md o,
  correct1 lik ck c pose z (G1 m P) old zl md = Val o ->
  o_ret o = fst (measure1 c pose (G1 m P)) /\
  o_lmk o = (if o_ret o
             then update1 (G1 m P) (snd (measure1 c pose (G1 m P))) (z - (m - g_mean pose))
             else old).
Proof.
  intros lik ck c pose z m P old zl md o. unfold correct1, correct.
  destruct (measure1 c pose (G1 m P)) as [ok e] eqn:Em. cbn [fst snd].
  assert (He : e_mean e = m - g_mean pose) by (unfold measure1 in Em; inversion Em; reflexivity).
  destruct ok; cbn [negb]; unfold innovation1; intro H.
  - destruct (ck && _); [discriminate|]. rewrite <- He.
    destruct zl; inversion H; cbn; split; reflexivity.
  - inversion H; cbn. split; reflexivity.
Qed.

(** The gain is between 0 and 1. *)
Lemma gain01 : forall P N : Qc, 0 <= P -> 0 <= N -> 0 < P + N ->
  0 < P + N /\ 0 <= P * / (P + N) /\ P * / (P + N) <= 1.
Proof.
  intros P N HP HN HS.
  pose proof (inv_pos _ HS) as Hi. pose proof (Qcmult_inv_r _ (pos_ne _ HS)) as E.
  split; [exact HS|]. set (i := / (P + N)) in *. clearbody i.
  split; qcnra.
Qed.

Lemma step1_ok : forall lik ck c pose z m P old zl md o,
  0 <= P -> 0 <= g_var pose -> 0 <= c_R c -> 0 < P + g_var pose + c_R c ->
  correct1 lik ck c pose z (G1 m P) old zl md = Val o -> o_ret o = true ->
  0 <= g_var (o_lmk o) /\ g_var (o_lmk o) <= P /\
  between m (g_mean pose + z) (g_mean (o_lmk o)).
Proof.
  intros lik ck c pose z m P old zl md o HP Hp HR HS0 H Ht.
  destruct (correct1_cases _ _ _ _ _ _ _ _ _ _ _ H) as [_ E]. rewrite Ht in E.
  assert (HN : 0 <= g_var pose + c_R c) by qclra.
  destruct (gain01 P (g_var pose + c_R c) HP HN ltac:(qclra)) as (HS & K0 & K1).
  assert (Ea : P + (g_var pose + c_R c) = P + g_var pose + c_R c) by ring.
  rewrite Ea in *. rewrite (update1_eq _ _ _ _ _ HS) in E. rewrite E. cbn [g_var g_mean].
  assert (Ei : (P + g_var pose + c_R c) * / (P + g_var pose + c_R c) = 1) by (apply Qcmult_inv_r, pos_ne, HS).
  assert (EV : (g_var pose + c_R c) * (P * / (P + g_var pose + c_R c)) = P - P * (P * / (P + g_var pose + c_R c))).
  { transitivity (((P + g_var pose + c_R c) * / (P + g_var pose + c_R c)) * P - P * (P * / (P + g_var pose + c_R c))); [ring|].
    rewrite Ei. ring. }
  set (K := P * / (P + g_var pose + c_R c)) in *.
  split; [|split].
  - clear - K0 HN. clearbody K. qcnra.
  - rewrite EV. clear - K0 HP. clearbody K. qcnra.
  - unfold between. clearbody K. set (d := g_mean pose + z - m).
    replace (g_mean pose + z) with (m + d) by (unfold d; ring).
    replace (z + g_mean pose - m) with d by (unfold d; ring). clearbody d.
    destruct (Qclt_le_dec d 0) as [Hd|Hd]; [right|left]; split; clear - Hd K0 K1; qcnra.
Qed.

(** A build without assert always answers. *)
Lemma correct1_total : forall lik c pose z l old zl md, exists o,
  correct1 lik false c pose z l old zl md = Val o.
Proof.
  intros. unfold correct1, correct. destruct (measure1 c pose l) as [ok e].
  destruct ok; cbn [negb]; [|eauto]. unfold innovation1. cbn [andb].
  destruct zl; eauto.
Qed.

(** With assert it answers unless the corrected mean is within 1e-12 of zero. *)
Lemma correct1_checked : forall lik c pose z l old zl md,
  fst (measure1 c pose l) = true ->
  (exists o, correct1 lik true c pose z l old zl md = Val o) <->
  is_zero1 (update1 l (snd (measure1 c pose l)) (z - (g_mean l - g_mean pose))) = false.
Proof.
  intros lik c pose z [m P] old zl md. unfold correct1, correct.
  destruct (measure1 c pose (G1 m P)) as [ok e] eqn:Em. cbn [fst snd g_mean].
  assert (He : e_mean e = m - g_mean pose) by (unfold measure1 in Em; inversion Em; reflexivity).
  intros ->. cbn [negb andb]. unfold innovation1. rewrite He.
  destruct (is_zero1 _); split; intro H; try discriminate; try reflexivity.
  - destruct H as [o Ho]. discriminate.
  - destruct zl; eauto.
Qed.

(** Sums over the accepted measurements. *)
Lemma run1_info : forall lik ck c l cur bs fin,
  0 < c_R c -> 0 < g_var cur -> (forall pz, In pz l -> 0 <= g_var (fst pz)) ->
  run1 lik ck c l cur = Val (bs, fin) ->
  length bs = length l /\ 0 < g_var fin /\
  / g_var fin = / g_var cur + sumf (info (c_R c)) (taken l bs) /\
  g_mean fin * / g_var fin = g_mean cur * / g_var cur + sumf (info_mean (c_R c)) (taken l bs).
Proof.
  induction l as [|[pose z] l IH]; intros [m P] bs fin HR HP Hl H; cbn [run1] in H.
  - inversion H; subst. cbn. repeat split; [exact HP|ring|ring].
  - apply obind_val in H. destruct H as (o & Ho & H).
    apply obind_val in H. destruct H as ([bs' fin'] & Hr & H). cbn [fst snd] in H. inversion H; subst bs fin'. clear H.
    destruct (correct1_cases _ _ _ _ _ _ _ _ _ _ _ Ho) as [Hret Hlm].
    assert (Hpv : 0 <= g_var pose) by (apply (Hl (pose, z)); left; reflexivity).
    assert (HN : 0 < g_var pose + c_R c) by qclra.
    assert (Hl' : forall pz, In pz l -> 0 <= g_var (fst pz)) by (intros pz Hin; apply Hl; right; exact Hin).
    destruct (o_ret o) eqn:Er.
    + cbn [g_var] in HP.
      assert (HS : 0 < P + g_var pose + c_R c) by qclra.
      rewrite (update1_eq _ _ _ _ _ HS) in Hlm.
      pose proof (Qcmult_inv_r _ (pos_ne _ HS)) as ES. pose proof (Qcmult_inv_r _ (pos_ne _ HP)) as EP.
      pose proof (Qcmult_inv_r _ (pos_ne _ HN)) as EN.
      assert (HV : 0 < g_var (o_lmk o)).
      { rewrite Hlm. cbn [g_var]. pose proof (inv_pos _ HS) as Hi. clear - Hi HN HP.
        set (i := / (P + g_var pose + c_R c)) in *. clearbody i. set (N := g_var pose + c_R c) in *. clearbody N.
        assert (0 < P * i) by qcnra. qcnra. }
      destruct (IH (o_lmk o) bs' fin HR HV Hl' Hr) as (Hlen & Hpos & Hi & Hm).
      cbn [length]. split; [f_equal; exact Hlen|]. split; [exact Hpos|].
      assert (EI : / g_var (o_lmk o) = / P + / (g_var pose + c_R c)).
      { pose proof (Qcmult_inv_r _ (pos_ne _ HV)) as EV.
        assert (Eg : g_var (o_lmk o) * (/ P + / (g_var pose + c_R c)) = 1).
        { rewrite Hlm. cbn [g_var].
          transitivity ((P * / P) * (g_var pose + c_R c) * / (P + g_var pose + c_R c)
            + ((g_var pose + c_R c) * / (g_var pose + c_R c)) * P * / (P + g_var pose + c_R c)); [ring|].
          rewrite EP, EN.
          transitivity ((P + g_var pose + c_R c) * / (P + g_var pose + c_R c)); [ring|exact ES]. }
        transitivity (/ g_var (o_lmk o) * (g_var (o_lmk o) * (/ P + / (g_var pose + c_R c)))); [rewrite Eg; ring|].
        transitivity ((g_var (o_lmk o) * / g_var (o_lmk o)) * (/ P + / (g_var pose + c_R c))); [ring|].
        rewrite EV. ring. }
      unfold taken. cbn [combine filter snd map fst sumf]. fold (taken l bs').
      split.
      * rewrite Hi, EI. cbn [g_var]. unfold info at 2. cbn [fst]. ring.
      * rewrite Hm. rewrite EI. cbn [g_mean g_var]. unfold info_mean at 2. cbn [fst snd].
        rewrite Hlm. cbn [g_mean].
        set (A := / P) in *. set (B := / (g_var pose + c_R c)) in *. set (N := g_var pose + c_R c) in *.
        assert (EK : P * / (P + g_var pose + c_R c) * (A + B) = B).
        { assert (ES' : (P + N) * / (P + g_var pose + c_R c) = 1).
          { rewrite <- ES. f_equal. unfold N. ring. }
          transitivity ((P * A) * / (P + g_var pose + c_R c) + P * B * / (P + g_var pose + c_R c)); [ring|].
          rewrite EP. rewrite <- EN.
          transitivity (((P + N) * / (P + g_var pose + c_R c)) * B); [ring|rewrite ES'; ring]. }
        transitivity (m * (A + B) + (P * / (P + g_var pose + c_R c) * (A + B)) * (z + g_mean pose - m)
                      + sumf (info_mean (c_R c)) (taken l bs')); [ring|].
        rewrite EK. ring.
    + rewrite Hlm in Hr.
      destruct (IH (G1 m P) bs' fin HR HP Hl' Hr) as (Hlen & Hpos & Hi & Hm).
      cbn [length]. split; [f_equal; exact Hlen|]. split; [exact Hpos|].
      unfold taken. cbn [combine filter snd]. fold (taken l bs'). split; [exact Hi|exact Hm].
Qed.

(** Static predictions. *)
Lemma predictions_ok : forall qn dTs s,
  let s' := predictions (Some qn) dTs s in
  g_mean (t_g s') = g_mean (t_g s) /\ g_var (t_g s') = g_var (t_g s) + times (length dTs) qn /\
  t_time s' = (t_time s + zsum dTs)%Z.
Proof.
  intros qn. induction dTs as [|d r IH]; intros s s'.
  - unfold s', predictions. cbn [fold_left length times zsum fold_right]. split; [reflexivity|]. split; [ring|lia].
  - destruct (IH (static_step (Some qn) s d)) as (H1 & H2 & H3).
    change s' with (predictions (Some qn) r (static_step (Some qn) s d)).
    rewrite H1, H2, H3. cbn [static_step t_g t_time g_mean g_var length times zsum fold_right].
    split; [reflexivity|]. split; [ring|]. unfold zsum. lia.
Qed.
