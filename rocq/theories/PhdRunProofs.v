(** The weighting and the map update of one particle of the PHD filter. *)
From Coq Require Import ZArith QArith Qcanon List Bool Arith Lia Permutation Sorted.
From Verif Require Import Base ListUtil QcLra Loop PermanentSpec PermanentProofs PartitionModel PartitionSpec RfsModel RfsSpec RfsProofs RfsProofs2 RfsProofs6
  PhdModel PhdSpec PhdProofs2 WeighModel WeighSpec WeighProofs WeighProofs2 ParticleModel RbRunModel BirthModel PhdRunModel PhdRunSpec.
Import ListNotations.
Local Open Scope Qc_scope.

Lemma qc_div_pos : forall a b : Qc, 0 < a -> 0 < b -> 0 < a / b.
Proof. intros a b Ha Hb. rewrite Qclt_div by exact Hb. rewrite Qcmult_0_l. exact Ha. Qed.

Section Importance.
Variable T : Type.
Variable probDet : T -> Qc * bool.
Variable meas : T -> nat -> Qc * Qc.
Variable glik : T -> T -> Qc.
Variable clutter : nat -> Qc.
Variables integral tiny : Qc.
Variable expf : Qc -> Qc.
Variable kbest : nat -> nat -> (nat -> nat -> Qc) -> list (list nat).
Variable comps : (nat -> nat -> Z) -> nat -> nat -> (nat -> nat) * nat.
Variable srt : list (gauss T) -> list (gauss T).
Hypothesis Hpd : forall lm, 0 <= fst (probDet lm) < 1.
Hypothesis Hmeas : forall lm z, 0 <= fst (meas lm z).
Hypothesis Hglik : forall a b, 0 <= glik a b.
Hypothesis Hcl : forall z, 0 <= clutter z.
Hypothesis Hint : 0 < integral.
Hypothesis Htiny : 0 < tiny.
Hypothesis Hexp : forall x, 0 < expf x.
Hypothesis Hk : kbest_contract kbest.
Hypothesis Hco : comps_contract comps.
Hypothesis Hs : sort_contract srt.
Notation point s := (fun p : nat * Qc => exists g, nth_error s (fst p) = Some g /\ snd p = fst (probDet (g_lm g)) /\ 0 < snd p).

Lemma pick_in : forall thr n (s : list (gauss T)) l pre i acc, s = pre ++ l -> length pre = i -> (forall p, In p acc -> point s p) ->
  forall p, In p (pick T probDet thr n i l acc) -> point s p.
Proof.
  intros thr n s. induction l as [|g r IH]; intros pre i acc Es Ei Ha p; cbn [pick]; [apply Ha|].
  destruct (Qcltb (g_w g) thr); [apply Ha|].
  assert (Ha' : forall p, In p (if Qcltb 0 (fst (probDet (g_lm g))) then acc ++ [(i, fst (probDet (g_lm g)))] else acc) -> point s p).
  { destruct (Qcltb 0 (fst (probDet (g_lm g)))) eqn:E; [|exact Ha]. intros q Hq. apply in_app_or in Hq. destruct Hq as [Hq|[<-|[]]]; [apply Ha; exact Hq|].
    exists g. cbn [fst snd]. split; [rewrite Es, nth_error_app2, Ei, Nat.sub_diag by lia; reflexivity|]. split; [reflexivity|]. apply Qcltb_true. exact E. }
  match goal with |- In p (if ?c then _ else _) -> _ => destruct c end; [apply Ha'|].
  apply (IH (pre ++ [g])); [rewrite <- app_assoc; exact Es|rewrite app_length; cbn; lia|exact Ha'].
Qed.

Lemma points_in : forall (s : list (gauss T)) ev, (forall p, In p ev -> point s p) ->
  exists ps, points T s ev = Val ps /\ forall p, In p ps -> 0 < snd p < 1.
Proof.
  intros s. induction ev as [|[i pd] ev IH]; intros H; cbn [points]; [exists []; split; [reflexivity|intros p []]|].
  destruct (H (i, pd) (or_introl eq_refl)) as (g & Eg & Ep & Hp). cbn [fst snd] in *. rewrite Eg. cbn [of_option obind].
  destruct IH as (ps & -> & Hps); [intros q Hq; apply H; right; exact Hq|]. cbn [obind]. eexists. split; [reflexivity|].
  intros q [<-|Hq]; [cbn [snd]|apply Hps; exact Hq]. split; [exact Hp|]. rewrite Ep. apply Hpd.
Qed.

Lemma at_pos : forall (w : gauss T -> Qc) (s : list (gauss T)) x, (forall g, In g s -> 0 <= w g) ->
  0 < fold_left (fun v g => v + w g * glik (g_lm g) x) s tiny.
Proof.
  intros w s x H. rewrite (fold_sum (fun g => w g * glik (g_lm g) x)).
  assert (A : 0 <= qsum (map (fun g => w g * glik (g_lm g) x) s)).
  { apply qsum_map_nonneg. intros g Hg. apply qmul_nonneg; [apply H; exact Hg|apply Hglik]. }
  qclra.
Qed.

(** The weight stays positive. *)
Theorem importance_pos : forall c nZ (l : list (gauss T)) weight, 0 < weight -> (0 < nZ)%nat -> (forall z, (z < nZ)%nat -> 0 < clutter z) ->
  (forall g, In g l -> 0 <= g_w g /\ 0 <= g_prev g) ->
  exists s w', importance T probDet meas glik clutter integral tiny expf kbest comps srt c nZ l weight = Val (s, w') /\ Permutation l s /\ 0 < w'.
Proof.
  intros c nZ l weight Hw HnZ Hclz Hl. unfold importance.
  destruct (eval_count (c_points c) (length l) =? 0)%Z.
  { exists l, tiny. split; [reflexivity|]. split; [apply Permutation_refl|exact Htiny]. }
  destruct (Hs l) as [HP _]. set (s := srt l) in *.
  assert (Hin : forall g, In g s -> 0 <= g_w g /\ 0 <= g_prev g).
  { intros g Hg. apply Hl. apply (Permutation_in _ (Permutation_sym HP)). exact Hg. }
  destruct (points_in s (pick T probDet (c_weight c) (eval_count (c_points c) (length l)) 0 s [])) as (ps & -> & Hps).
  { apply (pick_in _ _ s s [] 0%nat []); [reflexivity|reflexivity|intros p []]. }
  cbn [obind]. set (L := point_table T meas (c_gate2 c) ps).
  assert (HL : forall m z, 0 <= L m z).
  { intros m z. unfold L, point_table. destruct (nth_error ps m) as [[lm pd]|] eqn:E; [|discriminate].
    destruct (Qcltb (c_gate2 c) (snd (meas lm z))); [discriminate|]. apply qmul_nonneg; [apply Hmeas|].
    apply nth_error_In in E. apply Qclt_le_weak. apply (Hps _ E). }
  assert (Hp1 : forall m, 0 <= point_pd T ps m <= 1).
  { intros m. unfold point_pd. destruct (nth_error ps m) as [[lm pd]|] eqn:E; [|split; discriminate].
    apply nth_error_In, Hps in E. cbn [snd] in E. destruct E. split; apply Qclt_le_weak; assumption. }
  destruct (rfs_alive L (point_pd T ps) clutter 8 kbest HL Hp1 Hcl Hk (fst (comps (sig L) (length ps) nZ)) (snd (comps (sig L) (length ps) nZ))
     integral (length ps) nZ Hint ltac:(lia)) as (lik & -> & Hlik).
  { change (sig L) with (RfsSpec.support L). apply Hco. }
  { intros m Hm. unfold point_pd. destruct (nth_error ps m) as [[lm pd]|] eqn:E; [|apply nth_error_None in E; lia].
    apply nth_error_In in E. apply (Hps _ E). }
  { exact Hclz. }
  cbn [obind].
  assert (PA : 0 < prod_after T glik tiny s ps).
  { unfold prod_after. rewrite (fold_prod (fun p : T * Qc => at_after T glik tiny s (fst p))), Qcmult_1_l. apply qprod_pos. intros v Hv.
    apply in_map_iff in Hv. destruct Hv as (p & <- & _). apply (at_pos g_w). intros g Hg. apply Hin. exact Hg. }
  assert (PB : 0 < prod_before T glik tiny s ps).
  { unfold prod_before. rewrite (fold_prod (fun p : T * Qc => at_before T glik tiny s (fst p))), Qcmult_1_l. apply qprod_pos. intros v Hv.
    apply in_map_iff in Hv. destruct Hv as (p & <- & _). apply (at_pos g_prev). intros g Hg. apply Hin. exact Hg. }
  destruct (Qc_eq_dec (prod_after T glik tiny s ps) 0) as [E|_].
  { rewrite E in PA. vm_compute in PA. discriminate. }
  eexists s, _. split; [reflexivity|]. split; [exact HP|].
  apply qmul_pos; [|exact Hw]. apply qmul_pos; [|apply Hexp]. apply qc_div_pos; [|exact PA]. apply qmul_pos; assumption.
Qed.
End Importance.
