(** Theorems for C104-C109. *)
From Coq Require Import ZArith List Bool Arith QArith Qcanon Lia Sorted Permutation.
From Verif Require Import Base ListUtil QcLra PermanentSpec PartitionSpec RfsModel RfsSpec RfsProofs RfsProofs2 RfsKbest PhdModel PhdSpec PhdProofs2
  LmbModel LmbSpec MemberModel MemberSpec WeighModel WeighSpec WeighProofs WeighProofs2 WeighProofs3.
Import ListNotations.
Local Open Scope Qc_scope.

Section Theorems.
Variable T : Type.
Variable probDet : T -> Qc * bool.
Variable correct : T -> nat -> Qc * Qc * T.
Variable meas : T -> nat -> Qc * Qc.
Variable glik : T -> T -> Qc.
Variable clutter : nat -> Qc.
Variable integral : Qc.
Variables gateMD birthW tiny : Qc.
Variable expf : Qc -> Qc.
Variable kbest : nat -> nat -> (nat -> nat -> Qc) -> list (list nat).
Variable comps : (nat -> nat -> Z) -> nat -> nat -> (nat -> nat) * nat.
Variable srt : list (gauss T) -> list (gauss T).
Notation weigh := (weigh T probDet correct meas glik clutter integral gateMD birthW tiny expf kbest comps srt).
Notation update := (updateMap T probDet correct clutter gateMD birthW tiny expf).

(** C104, what the weight is multiplied by under the single-cluster option: exp of plus the
    expected number of landmarks (in view or not) times the product over the measurements of
    clutter intensity plus support. *)
Theorem C104_factor_partial : forall c t0 nZ mix weight, c_cluster c = true -> mix <> [] ->
  exists mix' S, weigh c t0 nZ mix weight =
    Val (mix', expf (tiny + mass T mix) * qprod (map (fun z => clutter z + S z) (seq 0 nZ)) * weight) /\
  (forall z, support_of T probDet correct gateMD mix z (S z)) /\
  exists r, update true t0 mix nZ = Val r /\ mix' = rmix T r.
Proof. exact (cluster_factor T probDet correct meas glik clutter integral gateMD birthW tiny expf kbest comps srt). Qed.

(** C105: for all maps (of less than 2^31 Gaussians) and settings other than 0 the evaluation
    points are the heaviest eligible Gaussians, and each is found again with its detection
    probability. *)
Theorem C105 : forall thr cfg (l : list (gauss T)), sort_contract srt ->
  (- 2 ^ 31 <= cfg < 2 ^ 31)%Z -> (Z.of_nat (length l) < 2 ^ 31)%Z -> cfg <> 0%Z -> l <> [] ->
  let mix := map (fun g => (g_lm g, g_w g)) (srt l) in
  let ev := pick T probDet thr (eval_count cfg (length l)) 0 (srt l) [] in
  heaviest T probDet thr cfg mix (map fst ev) /\
  exists ps, points T (srt l) ev = Val ps /\ found T probDet mix (map fst ev) ps.
Proof. exact (selection_sorted T probDet srt). Qed.

(** C106, the weight: likelihood of the measurements given the points (a point without possible
    measurement counts Pd instead of 1 - Pd) times intensities before over intensities after the
    update at the points times exp of the change of the expected number of landmarks. *)
Theorem C106_value_partial : sort_contract srt -> comps_contract comps -> kbest_contract kbest ->
  proper probDet correct meas glik clutter integral tiny ->
  forall c t0 nZ mix weight, c_cluster c = false -> mix <> [] -> (0 < nZ)%nat ->
  (forall lm w, In (lm, w) mix -> 0 <= w) ->
  (- 2 ^ 31 <= c_points c < 2 ^ 31)%Z -> c_points c <> 0%Z -> (Z.of_nat (length mix * S nZ) < 2 ^ 31)%Z ->
  exists r mix' w' ev ps lik s,
  update false t0 mix nZ = Val r /\ weigh c t0 nZ mix weight = Val (mix', w') /\
  Permutation (rmix T r) mix' /\ StronglySorted (fun a b => snd b <= snd a) mix' /\
  heaviest T probDet (c_weight c) (c_points c) mix' ev /\ found T probDet mix' ev ps /\
  (let L := seen_as T meas (c_gate2 c) ps in
   association_sum (length ps) nZ L (swapped nZ L (chance T ps)) clutter s /\
   0 <= lik /\ lik * integral <= s /\ (groups_small L (chance T ps) clutter (length ps) nZ -> lik * integral = s)) /\
  w' * qprod (map (fun p => tiny + intensity T glik (rmix T r) (fst p)) ps) =
  lik * qprod (map (fun p => tiny + intensity T glik mix (fst p)) ps) * expf (mass T (rmix T r) - mass T mix) * weight /\
  0 < qprod (map (fun p => tiny + intensity T glik (rmix T r) (fst p)) ps).
Proof. exact (weight_value T probDet correct meas glik clutter integral gateMD birthW tiny expf kbest comps srt). Qed.

(** C107 for particles whose map is not empty: all that see none of their landmarks get the same
    factor, whatever their maps. *)
Theorem C107_partial : sort_contract srt -> comps_contract comps -> kbest_contract kbest ->
  proper probDet correct meas glik clutter integral tiny ->
  forall c t0 nZ mix weight, c_cluster c = false -> mix <> [] -> (0 < nZ)%nat ->
  (forall lm w, In (lm, w) mix -> 0 <= w /\ probDet lm = (0, false)) ->
  (- 2 ^ 31 <= c_points c < 2 ^ 31)%Z -> c_points c <> 0%Z -> (Z.of_nat (length mix * S nZ) < 2 ^ 31)%Z ->
  exists mix', weigh c t0 nZ mix weight = Val (mix', qprod (map clutter (seq 0 nZ)) / integral * expf 0 * weight) /\
  Permutation mix mix'.
Proof. exact (blind T probDet correct meas glik clutter integral gateMD birthW tiny expf kbest comps srt). Qed.

(** C108 for maps that are not empty: the new weight is a factor that does not depend on the old
    weight times the old weight. *)
Theorem C108_partial : sort_contract srt -> comps_contract comps -> kbest_contract kbest ->
  proper probDet correct meas glik clutter integral tiny ->
  forall c t0 nZ mix, mix <> [] -> (0 < nZ)%nat -> (forall x, 0 <= expf x) ->
  (forall lm w, In (lm, w) mix -> 0 <= w) ->
  (- 2 ^ 31 <= c_points c < 2 ^ 31)%Z -> c_points c <> 0%Z -> (Z.of_nat (length mix * S nZ) < 2 ^ 31)%Z ->
  exists mix' f, 0 <= f /\ forall weight, weigh c t0 nZ mix weight = Val (mix', f * weight).
Proof. exact (proportional T probDet correct meas glik clutter integral gateMD birthW tiny expf kbest comps srt). Qed.

(** C107, C108, and the empty map of C104: what happens for all settings and measurements. *)
Theorem C108_empty_partial : forall c t0 nZ weight, (- 2 ^ 31 <= c_points c < 2 ^ 31)%Z ->
  weigh c t0 nZ [] weight = Val ([], if c_cluster c then weight else tiny).
Proof. exact (empty_weight T probDet correct meas glik clutter integral gateMD birthW tiny expf kbest comps srt). Qed.
End Theorems.
Print Assumptions C104_factor_partial.
Print Assumptions C105.
Print Assumptions C106_value_partial.
Print Assumptions C107_partial.
Print Assumptions C108_partial.
Print Assumptions C108_empty_partial.

(** C109: the factor is the likelihood of the measurements given that all tracks in view exist (and
    with Pd instead of 1 - Pd for tracks without possible measurement). *)
Theorem C109_factor_partial : forall (G : Type) probDet (correct : nat -> G -> option (G * Qc)) clutter integral thr kbest comps
  nZ (ts : list (track G)) weight,
  kbest_contract kbest -> comps_contract comps -> 0 < integral -> (0 < nZ)%nat -> 0 <= thr ->
  (forall g, 0 <= probDet g <= 1) -> (forall z, 0 <= clutter z) ->
  List.Forall fair ts -> (forall t, In t ts -> tP t * pd_of probDet t <> 1) -> ts <> [] ->
  exists l s, member_weight probDet correct clutter integral thr kbest comps nZ ts weight = Val (l * weight) /\
  (let V := visible probDet ts in
   let L := exists_table probDet correct thr V in
   association_sum (length V) nZ L (swapped nZ L (exists_pd probDet V)) clutter s /\
   0 <= l /\ l * integral <= s /\ (groups_small L (exists_pd probDet V) clutter (length V) nZ -> l * integral = s)).
Proof. exact @member_factor. Qed.
Print Assumptions C109_factor_partial.

(** The contracts can be met. *)
Theorem C106_contracts_exist : sort_contract (sort_ref nat) /\ comps_contract comps_ref /\ kbest_contract kbest_ref.
Proof. exact (conj (sort_ref_ok nat) (conj comps_ref_ok kbest_ref_ok)). Qed.
Print Assumptions C106_contracts_exist.

(** Landmarks 0..9 are in view, seen with probability 9/10; measurement z belongs to the landmarks z and z + 5; correcting
    landmark lm with it gives landmark lm + 5. *)
Definition q (a : Z) (b : positive) : Qc := Q2Qc (a # b).
Definition ex_pd (lm : nat) : Qc * bool := if Nat.ltb lm 10 then (q 9 10, false) else (0, false).
Definition ex_cor (lm z : nat) : Qc * Qc * nat := if Nat.eqb (lm mod 5) z then (1, 0, (lm + 5)%nat) else (0, q 50 1, lm).
Definition ex_meas (lm z : nat) : Qc * Qc := if Nat.eqb (lm mod 5) z then (1, 0) else (0, q 50 1).
Definition ex_glik (a b : nat) : Qc := if Nat.eqb a b then 1 else if Nat.eqb (a mod 5) (b mod 5) then q 1 2 else q 1 10.
Definition ex_clut (z : nat) : Qc := q 1 2.
Definition ex_exp (x : Qc) : Qc := if Qcltb x 0 then 1 / (1 - x) else 1 + x.
Definition ex_tab : tables nat := TB nat 0 0 (fun _ _ => 0) (fun _ _ => None).
Definition ex_weigh (expf : Qc -> Qc) := weigh nat ex_pd ex_cor ex_meas ex_glik ex_clut 1 (q 9 1) (q 1 10) (q 1 1000) expf kbest_ref comps_ref (sort_ref nat).
Definition ex_update (expf : Qc -> Qc) := updateMap nat ex_pd ex_cor ex_clut (q 9 1) (q 1 10) (q 1 1000) expf.
Definition ex_set (n : Z) (b : bool) : settings := Settings n 0 (q 9 1) b.
Definition ex_mix : list (nat * Qc) := [(0%nat, 1); (1%nat, q 1 2); (10%nat, q 3 4)].
Lemma ex_proper : proper ex_pd ex_cor ex_meas ex_glik ex_clut 1 (q 1 1000).
Proof.
  split; [|split; [|split; [|split; [|split; [|split]]]]].
  - intros lm. unfold ex_pd. destruct (Nat.ltb lm 10); split; vm_compute; discriminate.
  - intros lm z. unfold PhdSpec.likelihood, ex_cor. destruct (Nat.eqb (lm mod 5) z); vm_compute; discriminate.
  - intros lm z. unfold ex_meas. destruct (Nat.eqb (lm mod 5) z); vm_compute; discriminate.
  - intros a b. unfold ex_glik. destruct (Nat.eqb a b); [|destruct (Nat.eqb (a mod 5) (b mod 5))]; vm_compute; discriminate.
  - intros z. vm_compute. discriminate.
  - reflexivity.
  - reflexivity.
Qed.
Lemma ex_nonneg : forall lm w, In (lm, w) ex_mix -> 0 <= w.
Proof. intros lm w [H|[H|[H|[]]]]; injection H as <- <-; vm_compute; discriminate. Qed.

(** Values, for readers. *)
Definition shown (x : outcome (list (nat * Qc) * Qc)) : outcome (list (nat * Q) * Q) :=
  omap (fun p => (map (fun g => (fst g, this (snd g))) (fst p), this (snd p))) x.

Example C104_ex : c_cluster (ex_set 2 true) = true /\ ex_mix <> [] /\
  shown (ex_weigh ex_exp (ex_set 2 true) ex_tab 2 ex_mix 1) =
  Val ([(0%nat, 1 # 10); (1%nat, 1 # 20); (10%nat, 3 # 4); (5%nat, 9 # 14); (6%nat, 9 # 19)], 432383 # 100000)%Q.
Proof. split; [reflexivity|]. split; [discriminate|]. vm_compute. reflexivity. Qed.

(** C104 is false for every strictly increasing exponential: a landmark out of view (10), and one in
    view that was missed (9), raise the weight.  The probability of the measurements does not
    depend on the first and gets smaller with the second. *)
Theorem C104_refuted : forall expf : Qc -> Qc, (forall x y, x < y -> expf x < expf y) ->
  exists mix, forall lm, lm = 10%nat \/ lm = 9%nat ->
  exists m1 m2 w1 w2, ex_weigh expf (ex_set 2 true) ex_tab 1 mix 1 = Val (m1, w1) /\
  ex_weigh expf (ex_set 2 true) ex_tab 1 (mix ++ [(lm, 1)]) 1 = Val (m2, w2) /\ w1 < w2.
Proof.
  intros expf He. exists [(0%nat, 1)]. intros lm Hlm.
  destruct (cluster_factor nat ex_pd ex_cor ex_meas ex_glik ex_clut 1 (q 9 1) (q 1 10) (q 1 1000) expf kbest_ref comps_ref (sort_ref nat)
    (ex_set 2 true) ex_tab 1 [(0%nat, 1)] 1 eq_refl ltac:(discriminate)) as (m1 & S1 & E1 & H1 & _).
  destruct (cluster_factor nat ex_pd ex_cor ex_meas ex_glik ex_clut 1 (q 9 1) (q 1 10) (q 1 1000) expf kbest_ref comps_ref (sort_ref nat)
    (ex_set 2 true) ex_tab 1 ([(0%nat, 1)] ++ [(lm, 1)]) 1 eq_refl ltac:(discriminate)) as (m2 & S2 & E2 & H2 & _).
  exists m1, m2. eexists. eexists. split; [exact E1|]. split; [exact E2|].
  assert (F1 : S1 0%nat = q 9 10).
  { rewrite (support_U nat ex_pd ex_cor ex_clut (q 9 1) expf [(0%nat, 1)] (0%nat, 1) 1 0%nat _ (H1 0%nat)). apply Qc_is_canon. vm_compute. reflexivity. }
  assert (F2 : S2 0%nat = q 9 10).
  { rewrite (support_U nat ex_pd ex_cor ex_clut (q 9 1) expf ([(0%nat, 1)] ++ [(lm, 1)]) (0%nat, 1) 1 0%nat _ (H2 0%nat)).
    destruct Hlm as [-> | ->]; apply Qc_is_canon; vm_compute; reflexivity. }
  cbn [seq map]. rewrite !qprod_cons, !qprod_nil, F1, F2, !Qcmult_1_r.
  apply Qcmult_lt_compat_r; [reflexivity|]. apply He. vm_compute. reflexivity.
Qed.
Print Assumptions C104_refuted.

(** C104 is false for the empty map: the weight stays as it is, although the probability of the
    measurement is its clutter intensity. *)
Theorem C104_empty_refuted : ex_weigh ex_exp (ex_set 2 true) ex_tab 1 [] 1 = Val ([], 1) /\ qprod (map ex_clut (seq 0 1)) <> 1.
Proof. split; [reflexivity|vm_compute; discriminate]. Qed.
Print Assumptions C104_empty_refuted.

(** C105 at work: two points, of the eligible Gaussians 5, 6, 0, 1. *)
Example C105_ex : let l := with_prev nat [(0%nat, q 1 10); (1%nat, q 1 20); (10%nat, q 3 4); (5%nat, q 9 14); (6%nat, q 9 19)] ex_mix in
  l <> [] /\ sort_contract (sort_ref nat) /\
  map fst (pick nat ex_pd 0 (eval_count 2 5) 0 (sort_ref nat l) []) = [1; 2]%nat /\
  map fst (pick nat ex_pd 0 (eval_count (-1) 5) 0 (sort_ref nat l) []) = [1; 2; 3; 4]%nat /\
  map fst (pick nat ex_pd (q 1 10) (eval_count 9 5) 0 (sort_ref nat l) []) = [1; 2; 3]%nat.
Proof. split; [discriminate|]. split; [apply sort_ref_ok|]. split; [|split]; vm_compute; reflexivity. Qed.

Example C106_ex : sort_contract (sort_ref nat) /\ comps_contract comps_ref /\ kbest_contract kbest_ref /\
  proper ex_pd ex_cor ex_meas ex_glik ex_clut 1 (q 1 1000) /\ (forall lm w, In (lm, w) ex_mix -> 0 <= w) /\
  shown (ex_weigh ex_exp (ex_set 2 false) ex_tab 2 ex_mix 1) =
  Val ([(10%nat, 3 # 4); (5%nat, 9 # 14); (6%nat, 9 # 19); (0%nat, 1 # 10); (1%nat, 1 # 20)], 27919103232461 # 70384304550365)%Q.
Proof.
  split; [apply sort_ref_ok|]. split; [apply comps_ref_ok|]. split; [apply kbest_ref_ok|]. split; [exact ex_proper|].
  split; [exact ex_nonneg|]. vm_compute. reflexivity.
Qed.

(** C106 is false: landmark 9 is in view and was missed, and the likelihood in the weight is not the
    one of a missed landmark, 1 - Pd times clutter. *)
Theorem C106_refuted : exists mix r mix' w',
  (forall lm w, In (lm, w) mix -> 0 <= w) /\ ex_update ex_exp false ex_tab mix 1 = Val r /\
  ex_weigh ex_exp (ex_set 2 false) ex_tab 1 mix 1 = Val (mix', w') /\
  forall ev ps s, heaviest nat ex_pd 0 2 mix' ev -> found nat ex_pd mix' ev ps ->
  association_sum (length ps) 1 (seen_as nat ex_meas (q 9 1) ps) (chance nat ps) ex_clut s ->
  w' * qprod (map (fun p => q 1 1000 + intensity nat ex_glik (rmix nat r) (fst p)) ps) <>
  s * qprod (map (fun p => q 1 1000 + intensity nat ex_glik mix (fst p)) ps) * ex_exp (mass nat (rmix nat r) - mass nat mix) * 1.
Proof.
  exists [(9%nat, 1)].
  set (rhs := fun r => q 1 20 * qprod (map (fun p => q 1 1000 + intensity nat ex_glik [(9%nat, 1)] p) [9%nat]) *
                       ex_exp (mass nat (rmix nat r) - mass nat [(9%nat, 1)]) * 1).
  set (lhs := fun r w' => w' * qprod (map (fun p => q 1 1000 + intensity nat ex_glik (rmix nat r) p) [9%nat])).
  assert (E : (let* r := ex_update ex_exp false ex_tab [(9%nat, 1)] 1 in
               let* p := ex_weigh ex_exp (ex_set 2 false) ex_tab 1 [(9%nat, 1)] 1 in
               Val (map (fun g => (fst g, this (snd g))) (fst p), Qc_eq_bool (lhs r (snd p)) (rhs r))) = Val ([(9%nat, 1 # 10)%Q], false))
    by (vm_compute; reflexivity).
  destruct (ex_update ex_exp false ex_tab [(9%nat, 1)] 1) as [r|u|]; [|discriminate|discriminate]. cbn [obind] in E.
  destruct (ex_weigh ex_exp (ex_set 2 false) ex_tab 1 [(9%nat, 1)] 1) as [[mix' w']|u|]; [|discriminate|discriminate].
  cbn [obind fst snd] in E. injection E as Em Ew.
  exists r, mix', w'. split; [intros lm w [H|[]]; injection H as <- <-; vm_compute; discriminate|]. split; [reflexivity|]. split; [reflexivity|].
  destruct mix' as [|[lm0 w0] [|g mix']]; try discriminate Em. injection Em as -> Ew0.
  intros ev ps s (Hs & Hel & Hlim & Hmax) Hf Has.
  assert (Eev : ev = [0%nat]).
  { destruct ev as [|i [|j ev]].
    - exfalso. destruct (Hmax 0%nat (9%nat, w0) eq_refl) as [K _]; [|intros []|discriminate].
      split; [unfold Qcle; cbn [snd]; rewrite Ew0; discriminate|vm_compute; reflexivity].
    - f_equal. destruct (Hel i (or_introl eq_refl)) as (g & Hg & _). destruct i as [|[|i]]; [reflexivity|discriminate|discriminate].
    - exfalso. destruct (Hel i (or_introl eq_refl)) as (g & Hg & _). destruct (Hel j (or_intror (or_introl eq_refl))) as (h & Hh & _).
      inversion Hs as [|? ? _ HF]; subst. inversion HF; subst. destruct i as [|i]; destruct j as [|[|j]]; try lia; try discriminate; destruct i; discriminate. }
  subst ev. inversion Hf as [|? p ? ps0 (w & Hp & Hpd) Hf0]; subst. inversion Hf0; subst. destruct p as [lm pd]. cbn [fst snd nth_error] in *.
  injection Hp as <- <-. subst pd. apply association_sum_iff in Has.
  assert (Es : s = q 1 20) by (rewrite Has; apply Qc_is_canon; vm_compute; reflexivity).
  rewrite Es. unfold Qc_eq_bool in Ew. destruct (Qc_eq_dec (lhs r w') (rhs r)) as [|N]; [discriminate|]. exact N.
Qed.
Print Assumptions C106_refuted.

(** Two particles that see nothing and have different maps. *)
Example C107_ex : (forall lm w, In (lm, w) [(10%nat, 1); (12%nat, q 1 2)] -> 0 <= w /\ ex_pd lm = (0, false)) /\
  shown (ex_weigh ex_exp (ex_set 2 false) ex_tab 2 [(10%nat, 1); (12%nat, q 1 2)] 1) = Val ([(10%nat, 1); (12%nat, 1 # 2)], 1 # 4)%Q /\
  shown (ex_weigh ex_exp (ex_set 2 false) ex_tab 2 [(11%nat, q 1 3)] 1) = Val ([(11%nat, 1 # 3)], 1 # 4)%Q.
Proof.
  split; [|split; vm_compute; reflexivity].
  intros lm w [H|[H|[]]]; injection H as <- <-; (split; [vm_compute; discriminate|reflexivity]).
Qed.

(** C107 is false: a particle with an empty map gets the smallest number, one with a landmark out of
    view the clutter density. *)
Theorem C107_refuted : exists mix m1 w1 w2, (forall lm w, In (lm, w) mix -> ex_pd lm = (0, false)) /\
  ex_weigh ex_exp (ex_set 2 false) ex_tab 1 mix 1 = Val (m1, w1) /\ ex_weigh ex_exp (ex_set 2 false) ex_tab 1 [] 1 = Val ([], w2) /\
  w1 = q 1 2 /\ w2 = q 1 1000.
Proof.
  exists [(10%nat, 1)].
  assert (E : shown (ex_weigh ex_exp (ex_set 2 false) ex_tab 1 [(10%nat, 1)] 1) = Val ([(10%nat, 1)], 1 # 2)%Q) by (vm_compute; reflexivity).
  destruct (ex_weigh ex_exp (ex_set 2 false) ex_tab 1 [(10%nat, 1)] 1) as [[m1 w1]|u|]; [|discriminate|discriminate].
  cbn in E. injection E as _ E. exists m1, w1. eexists. split; [intros lm w [H|[]]; injection H as <- <-; reflexivity|]. split; [reflexivity|].
  split; [apply (empty_weight nat); cbn; lia|]. split; [|reflexivity]. apply Qc_is_canon. rewrite E. vm_compute. reflexivity.
Qed.
Print Assumptions C107_refuted.

(** C108_partial at work: half the weight gives half the weight, with and without the cluster option. *)
Example C108_ex : (forall x, 0 <= ex_exp x) /\
  omap (fun p => this (snd p)) (ex_weigh ex_exp (ex_set 2 false) ex_tab 2 ex_mix (q 1 2)) = Val (27919103232461 # 140768609100730)%Q /\
  omap (fun p => this (snd p)) (ex_weigh ex_exp (ex_set 2 true) ex_tab 2 ex_mix (q 1 2)) = Val (432383 # 200000)%Q.
Proof.
  split; [|split; vm_compute; reflexivity].
  intros x. unfold ex_exp. destruct (Qcltb x 0) eqn:E.
  - apply Qcltb_true in E. apply Qclt_le_weak. apply Qclt_div; [qclra|reflexivity].
  - apply Qcltb_false in E. qclra.
Qed.

(** C108 is false: with an empty map, or with the number of evaluation points set to 0, the weight of the particle is lost. *)
Theorem C108_refuted : forall c mix, (c = ex_set 2 false /\ mix = []) \/ (c = ex_set 0 false /\ mix = [(0%nat, 1)]) ->
  ~ exists mix' f, forall weight, ex_weigh ex_exp c ex_tab 1 mix weight = Val (mix', f * weight).
Proof.
  intros c mix Hc (mix' & f & H).
  assert (K : omap (fun p => this (snd p)) (ex_weigh ex_exp c ex_tab 1 mix 0) = Val (1 # 1000)%Q)
    by (destruct Hc as [[-> ->]|[-> ->]]; vm_compute; reflexivity).
  rewrite H in K. cbn [omap snd] in K. rewrite Qcmult_0_r in K. vm_compute in K. discriminate.
Qed.
Print Assumptions C108_refuted.

(** A track at a place seen with probability 1/2 that gives measurement 0 with likelihood 1. *)
Definition tr (r : Qc) : list (track nat) := [Track r [(1, 0%nat)]].
Definition tr_cor (z g : nat) : option (nat * Qc) := Some (g, if Nat.eqb z 0 then 1 else 0).
Definition ex_member := member_weight (fun _ : nat => q 1 2) tr_cor ex_clut 1 0 kbest_ref comps_ref.
Example C109_ex : List.Forall good (tr (q 1 3)) /\ (forall t, In t (tr (q 1 3)) -> tP t * pd_of (fun _ => q 1 2) t <> 1) /\
  omap this (ex_member 1 (tr (q 1 3)) 1) = Val (3 # 4)%Q /\ omap this (ex_member 2 (tr (q 1 3)) 1) = Val (3 # 8)%Q.
Proof.
  split; [|split; [|split; vm_compute; reflexivity]].
  - constructor; [|constructor]. split; [split; vm_compute; discriminate|]. split; [|reflexivity].
    intros w g [H|[]]. injection H as <- <-. vm_compute. discriminate.
  - intros t [<-|[]]. vm_compute. discriminate.
Qed.

(** C109 is false: two maps that make the measurement more or less probable get the same factor. *)
Theorem C109_refuted : exists ts ts' w w' v v',
  ex_member 1 ts 1 = Val w /\ ex_member 1 ts' 1 = Val w' /\ w = w' /\
  bayes (fun _ => q 1 2) tr_cor ex_clut 1 ts v /\ bayes (fun _ => q 1 2) tr_cor ex_clut 1 ts' v' /\ v < v'.
Proof.
  assert (EN : NoDup [[Gone]; [Missed]; [Seen 0]] /\ forall e, In e [[Gone]; [Missed]; [Seen 0]] <-> event 1 1 e).
  { split; [repeat constructor; cbn; intuition discriminate|]. intros e. split.
    - intros [<-|[<-|[<-|[]]]]; (split; [reflexivity|]); (split; [intros z [K|[]]; first [discriminate|injection K as <-; lia]|]);
        intros [|[|i]] [|[|j]] z Hi Hj; first [reflexivity|discriminate].
    - intros (L & Z & _). destruct e as [|s [|]]; try discriminate. destruct s as [| |z]; cbn; auto.
      specialize (Z z (or_introl eq_refl)). replace z with 0%nat by lia. auto. }
  exists (tr (q 1 10)), (tr (q 9 10)).
  assert (E : omap this (ex_member 1 (tr (q 1 10)) 1) = Val (3 # 4)%Q) by (vm_compute; reflexivity).
  assert (E' : omap this (ex_member 1 (tr (q 9 10)) 1) = Val (3 # 4)%Q) by (vm_compute; reflexivity).
  assert (got : forall (o : outcome Qc) x, omap this o = Val x -> exists w, o = Val w /\ this w = x)
    by (intros [w|u|] x K; [injection K as <-; eauto|discriminate|discriminate]).
  destruct (got _ _ E) as (w & F & G). destruct (got _ _ E') as (w' & F' & G'). clear E E'. rename G into E. rename G' into E'.
  exists w, w', (q 21 40), (q 29 40). split; [exact F|]. split; [exact F'|]. split; [apply Qc_is_canon; rewrite E, E'; reflexivity|].
  split; [|split; [|vm_compute; reflexivity]]; exists [[Gone]; [Missed]; [Seen 0]]; (split; [apply EN|]); (split; [apply EN|]);
    apply Qc_is_canon; vm_compute; reflexivity.
Qed.
Print Assumptions C109_refuted.

(** C109 is false for the empty map: the factor is 1 where the probability of the measurement is its clutter intensity. *)
Theorem C109_empty_refuted : (forall weight, ex_member 1 [] weight = Val weight) /\ bayes (fun _ => q 1 2) tr_cor ex_clut 1 [] (q 1 2).
Proof.
  split; [intros; reflexivity|]. exists [[]]. split; [repeat constructor; intros []|]. split.
  - intros e. split.
    + intros [<-|[]]. split; [reflexivity|]. split; [intros z []|]. intros i j z Hi. destruct i; discriminate.
    + intros (L & _). destruct e; [left; reflexivity|discriminate].
  - apply Qc_is_canon. vm_compute. reflexivity.
Qed.
Print Assumptions C109_empty_refuted.
