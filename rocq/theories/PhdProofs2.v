(** Proofs about RBPHDFilter::updateMap: weight conservation and independence of the table. *)
From Coq Require Import List Bool Arith QArith Qcanon Lia Sorted.
From Verif Require Import Base ListUtil QcLra Loop PermanentSpec PermanentProofs RfsProofs RfsProofs3 PhdModel PhdSpec PhdProofs.
Import ListNotations.
Local Open Scope Qc_scope.

Lemma map_nth_seq : forall {A B} (f : A -> B) (l : list A) d, map (fun m => f (nth m l d)) (seq 0 (length l)) = map f l.
Proof.
  intros A B f l d. apply list_ext. intros i. rewrite !nth_error_map.
  destruct (Nat.lt_ge_cases i (length l)) as [H|H].
  - rewrite (nth_error_nth' (seq 0 (length l)) 0%nat) by (rewrite seq_length; exact H). rewrite seq_nth by exact H.
    rewrite (nth_error_nth' l d H). reflexivity.
  - rewrite (proj2 (nth_error_None l i) H). rewrite (proj2 (nth_error_None (seq 0 (length l)) i)); [reflexivity|].
    rewrite seq_length. exact H.
Qed.

Lemma qsum_filter2 : forall {X} (f : X -> Qc) P Q l, (forall x, In x l -> Q x = false -> f x = 0) ->
  qsum (map f (filter P (filter Q l))) = qsum (map (fun x => if P x then f x else 0) l).
Proof.
  intros X f P Q l. induction l as [|x l IH]; intros H; [reflexivity|]. cbn [filter map].
  rewrite qsum_cons, <- IH by (intros; apply H; [right|]; assumption).
  destruct (Q x) eqn:E; cbn [filter].
  - destruct (P x); cbn [map]; [rewrite qsum_cons|]; ring.
  - rewrite (H x (or_introl eq_refl) E). destruct (P x); ring.
Qed.

Lemma qsum_prod : forall (F : nat * nat -> Qc) rows cols,
  qsum (map F (list_prod rows cols)) = qsum (map (fun m => qsum (map (fun z => F (m, z)) cols)) rows).
Proof.
  intros F rows cols. induction rows as [|r rows IH]; [reflexivity|]. cbn [list_prod map].
  rewrite map_app, qsum_app, IH, qsum_cons, map_map. reflexivity.
Qed.

Lemma qsum_at : forall (f : nat -> Qc) z l, NoDup l -> In z l -> qsum (map (fun j => if Nat.eqb j z then f j else 0) l) = f z.
Proof.
  intros f z l Hn. induction Hn as [|x l Hx Hn IH]; intros Hz; [destruct Hz|]. cbn [map]. rewrite qsum_cons.
  destruct (Nat.eqb_spec x z) as [->|Hne].
  - rewrite qsum_zero; [ring|]. intros y Hy. destruct (Nat.eqb_spec y z); [subst; contradiction|reflexivity].
  - destruct Hz as [->|Hz]; [contradiction|]. rewrite IH by exact Hz. ring.
Qed.

Lemma filter_combine_map : forall {A B} (f : A -> B) (P : A -> bool) l,
  filter (fun og => P (fst og)) (combine l (map f l)) = map (fun x => (x, f x)) (filter P l).
Proof.
  intros A B f P l. induction l as [|x l IH]; [reflexivity|]. cbn [map combine filter fst]. rewrite IH. destruct (P x); reflexivity.
Qed.

Lemma sorted_filter_seq : forall (P : nat -> bool) n k, StronglySorted lt (filter P (seq k n)).
Proof.
  intros P n. induction n as [|n IH]; intros k; cbn [seq filter]; [constructor|].
  destruct (P k); [|apply IH]. constructor; [apply IH|]. apply Forall_forall. intros x Hx.
  apply filter_In in Hx. destruct Hx as [Hx _]. apply in_seq in Hx. lia.
Qed.

Section Conserve.
Variable T : Type.
Variable probDet : T -> Qc * bool.
Variable correct : T -> nat -> Qc * Qc * T.
Variable clutter : nat -> Qc.
Variables gateMD birthW tiny : Qc.
Variable expf : Qc -> Qc.

Notation pd := (pdet T probDet).
Notation lik := (likelihood T correct).
Notation gated := (gated T probDet correct gateMD).
Notation update := (updateMap T probDet correct clutter gateMD birthW tiny expf).

Section Mix.
Variable mix : list (T * Qc).
Variable d : T * Qc.
Variable nZ : nat.
Notation nM := (length mix).
Notation U := (U T probDet correct gateMD mix d).
Notation NW := (NW T probDet correct clutter gateMD mix d).
Notation tot := (tot T probDet correct clutter gateMD mix d).
Notation gb := (gb T probDet correct gateMD mix d).
Notation ob := (ob T probDet correct clutter gateMD mix d).
Notation W := (W T probDet correct clutter gateMD birthW mix d nZ).

Lemma gb_spec : forall m z, gb m z = true <-> gated (fst (nth m mix d)) z.
Proof.
  intros m z. unfold PhdProofs.gb, PhdSpec.gated.
  destruct (Qc_eq_dec (pd (fst (nth m mix d))) 0) as [E|E]; [split; [discriminate|tauto]|].
  destruct (Qc_eq_dec (lik (fst (nth m mix d)) z) 0) as [E2|E2]; [split; [discriminate|tauto]|].
  rewrite negb_true_iff, Qcltb_false. tauto.
Qed.

Lemma support_U : forall z s, support_of T probDet correct gateMD mix z s -> s = qsum (map (fun m => U m z) (seq 0 nM)).
Proof.
  intros z s (vs & HF & ->). f_equal.
  unfold PhdProofs.U, PhdProofs.gb.
  rewrite (map_nth_seq (fun g => if (if Qc_eq_dec (pd (fst g)) 0 then false else if Qc_eq_dec (lik (fst g) z) 0 then false
     else negb (Qcltb gateMD (snd (fst (correct (fst g) z))))) then pd (fst g) * snd g * lik (fst g) z else 0) mix d).
  induction HF as [|g v gs vs Hgv HF IH]; [reflexivity|]. cbn [map]. f_equal; [|exact IH].
  destruct Hgv as [H1 H2]. unfold PhdSpec.gated in *.
  destruct (Qc_eq_dec (pd (fst g)) 0) as [E|E]; [apply H2; tauto|].
  destruct (Qc_eq_dec (lik (fst g) z) 0) as [E2|E2]; [apply H2; tauto|].
  destruct (Qcltb gateMD (snd (fst (correct (fst g) z)))) eqn:E3; cbn [negb].
  - apply Qcltb_true in E3. apply H2. intros (_ & _ & H). qclra.
  - apply Qcltb_false in E3. apply H1. auto.
Qed.

Lemma support_ex : forall z, support_of T probDet correct gateMD mix z (qsum (map (fun m => U m z) (seq 0 nM))).
Proof.
  intros z. exists (map (fun m => U m z) (seq 0 nM)). split; [|reflexivity].
  assert (E : mix = map (fun m => nth m mix d) (seq 0 nM)) by (rewrite (map_nth_seq (fun x => x) mix d); rewrite map_id; reflexivity).
  rewrite E at 1. generalize (seq 0 nM). induction l as [|m l IH]; cbn [map]; constructor; [|exact IH].
  unfold PhdProofs.U. split; intros H.
  - destruct (gb m z) eqn:E2; [reflexivity|]. apply gb_spec in H. congruence.
  - destruct (gb m z) eqn:E2; [|reflexivity]. apply gb_spec in E2. contradiction.
Qed.

Hypothesis HW : forall lm w, In (lm, w) mix -> 0 <= w.
Hypothesis HP : forall lm w, In (lm, w) mix -> 0 <= fst (probDet lm).
Hypothesis HL : forall lm w z, In (lm, w) mix -> (z < nZ)%nat -> 0 <= lik lm z.
Hypothesis HC : forall z, (z < nZ)%nat -> 0 <= clutter z.

Lemma pd_nonneg : forall lm w, In (lm, w) mix -> 0 <= pd lm.
Proof. intros lm w H. unfold pdet. destruct (snd (probDet lm)); [qclra|exact (HP lm w H)]. Qed.

Lemma entry_in : forall m, (m < nM)%nat -> In (fst (nth m mix d), snd (nth m mix d)) mix.
Proof. intros m H. rewrite <- surjective_pairing. apply nth_In. exact H. Qed.

Lemma U_nonneg : forall m z, (m < nM)%nat -> (z < nZ)%nat -> 0 <= U m z.
Proof.
  intros m z Hm Hz. unfold PhdProofs.U. destruct (gb m z); [|qclra].
  pose proof (entry_in m Hm) as Hi. apply qmul_nonneg; [apply qmul_nonneg|].
  - exact (pd_nonneg _ _ Hi).
  - exact (HW _ _ Hi).
  - exact (HL _ _ z Hi Hz).
Qed.

Lemma supp_nonneg : forall z, (z < nZ)%nat -> 0 <= qsum (map (fun m => U m z) (seq 0 nM)).
Proof.
  intros z Hz. apply RfsProofs3.qsum_nonneg. intros x Hx. apply in_map_iff in Hx. destruct Hx as (m & <- & Hm).
  apply in_seq in Hm. apply U_nonneg; [lia|exact Hz].
Qed.

Lemma U_le : forall m z, (m < nM)%nat -> (z < nZ)%nat -> U m z <= qsum (map (fun m => U m z) (seq 0 nM)).
Proof.
  intros m z Hm Hz.
  assert (E : qsum (map (fun j => if Nat.eqb j m then U j z else 0) (seq 0 nM)) = U m z).
  { apply (qsum_at (fun j => U j z)); [apply seq_NoDup|apply in_seq; lia]. }
  rewrite <- E at 1.
  assert (G : forall l, (forall j, In j l -> 0 <= U j z) ->
    qsum (map (fun j => if Nat.eqb j m then U j z else 0) l) <= qsum (map (fun j => U j z) l)).
  { induction l as [|j l IH]; intros H; [apply Qcle_refl|]. cbn [map]. rewrite !qsum_cons.
    pose proof (IH (fun i Hi => H i (or_intror Hi))). pose proof (H j (or_introl eq_refl)).
    destruct (Nat.eqb j m); qclra. }
  apply G. intros j Hj. apply in_seq in Hj. apply U_nonneg; [lia|exact Hz].
Qed.

Lemma tot_pos : forall m z, (m < nM)%nat -> (z < nZ)%nat -> 0 < U m z -> 0 < tot z.
Proof.
  intros m z Hm Hz H. unfold PhdProofs.tot. pose proof (U_le m z Hm Hz). pose proof (HC z Hz). qclra.
Qed.

Lemma tot_nonneg : forall z, (z < nZ)%nat -> 0 <= tot z.
Proof. intros z Hz. unfold PhdProofs.tot. pose proof (supp_nonneg z Hz). pose proof (HC z Hz). qclra. Qed.

Lemma qdiv_pos : forall a b : Qc, 0 < b -> (0 < a / b <-> 0 < a).
Proof. intros a b Hb. rewrite Qclt_div by exact Hb. rewrite Qcmult_0_l. tauto. Qed.
Lemma qdiv_0 : forall b : Qc, 0 / b = 0.
Proof. intros b. unfold Qcdiv. ring. Qed.

Lemma NW_pos : forall m z, (m < nM)%nat -> (z < nZ)%nat -> (0 < NW m z <-> 0 < U m z).
Proof.
  intros m z Hm Hz. unfold PhdProofs.NW. destruct (Qc_eq_dec (tot z) 0); [tauto|].
  apply qdiv_pos. pose proof (tot_nonneg z Hz) as H. apply Qcle_lt_or_eq in H. destruct H as [H|H]; [exact H|congruence].
Qed.

Lemma NW_zero : forall m z, (m < nM)%nat -> (z < nZ)%nat -> ~ 0 < U m z -> NW m z = 0.
Proof.
  intros m z Hm Hz H. assert (E : U m z = 0).
  { pose proof (U_nonneg m z Hm Hz). apply Qcnot_lt_le in H. apply Qcle_antisym; assumption. }
  unfold PhdProofs.NW. rewrite E. destruct (Qc_eq_dec (tot z) 0); [reflexivity|apply qdiv_0].
Qed.

Lemma qmul_pos3 : forall a b c : Qc, 0 <= a -> 0 <= b -> 0 <= c -> (0 < a * b * c <-> a <> 0 /\ 0 < b /\ c <> 0).
Proof.
  intros a b c Ha Hb Hc. split.
  - intros H. split; [|split].
    + intros ->. replace (0 * b * c) with 0 in H by ring. exact (Qclt_not_eq _ _ H eq_refl).
    + apply Qcle_lt_or_eq in Hb. destruct Hb as [Hb|<-]; [exact Hb|]. replace (a * 0 * c) with 0 in H by ring. exact H.
    + intros ->. replace (a * b * 0) with 0 in H by ring. exact (Qclt_not_eq _ _ H eq_refl).
  - intros (A & B & C).
    apply Qcle_lt_or_eq in Ha. destruct Ha as [Ha|Ha]; [|congruence].
    apply Qcle_lt_or_eq in Hc. destruct Hc as [Hc|Hc]; [|congruence].
    assert (H1 : 0 < a * b) by (pose proof (proj2 (Qcmul_lt 0 a b B) Ha); rewrite Qcmult_0_l in *; assumption).
    pose proof (proj2 (Qcmul_lt 0 (a * b) c Hc) H1). rewrite Qcmult_0_l in *; assumption.
Qed.

Lemma ob_spec : forall m z, (m < nM)%nat -> (z < nZ)%nat ->
  (ob (m, z) = true <-> gated (fst (nth m mix d)) z /\ 0 < snd (nth m mix d)).
Proof.
  intros m z Hm Hz. unfold PhdProofs.ob. cbn [fst snd]. rewrite andb_true_iff, gb_spec, Qcltb_true, NW_pos by assumption.
  pose proof (entry_in m Hm) as Hi. split; intros [Hg H]; split; try exact Hg.
  - unfold PhdProofs.U in H. rewrite (proj2 (gb_spec m z) Hg) in H.
    apply qmul_pos3 in H; [tauto|exact (pd_nonneg _ _ Hi)|exact (HW _ _ Hi)|exact (HL _ _ z Hi Hz)].
  - unfold PhdProofs.U. rewrite (proj2 (gb_spec m z) Hg).
    destruct Hg as (G1 & G2 & _).
    apply qmul_pos3; [exact (pd_nonneg _ _ Hi)|exact (HW _ _ Hi)|exact (HL _ _ z Hi Hz)|tauto].
Qed.

Lemma ob_false : forall p, In p (upto nZ nM 0) -> ob p = false -> NW (fst p) (snd p) = 0.
Proof.
  intros [m z] Hp H. apply in_upto in Hp. destruct Hp as [[Hm Hz]|[_ Hz]]; [|lia]. cbn [fst snd].
  apply NW_zero; try assumption. intros HU. unfold PhdProofs.ob in H. cbn [fst snd] in H.
  rewrite (proj2 (Qcltb_true _ _) (proj2 (NW_pos m z Hm Hz) HU)), andb_true_r in H.
  unfold PhdProofs.U in HU. rewrite H in HU. exact (Qclt_not_eq _ _ HU eq_refl).
Qed.

Notation mkg := (mk T probDet correct clutter gateMD mix d).
Notation origin := (filter ob (upto nZ nM 0)).

Lemma created_val : forall z, (z < nZ)%nat -> qsum (created T origin (map mkg origin) z) = qsum (map (fun m => NW m z) (seq 0 nM)).
Proof.
  intros z Hz. unfold created. rewrite (filter_combine_map mkg (fun p => Nat.eqb (snd p) z)), map_map. cbn [snd PhdProofs.mk].
  rewrite (qsum_filter2 (fun p => NW (fst p) (snd p))) by (intros; apply ob_false; assumption).
  unfold upto. cbn [seq map]. rewrite app_nil_r, qsum_prod. apply qsum_ext. intros m Hm. cbn [fst snd].
  apply (qsum_at (fun j => NW m j)); [apply seq_NoDup|apply in_seq; lia].
Qed.

Lemma created_by_val : forall m, (m < nM)%nat -> qsum (created_by T origin (map mkg origin) m) = qsum (map (NW m) (seq 0 nZ)).
Proof.
  intros m Hm. unfold created_by. rewrite (filter_combine_map mkg (fun p => Nat.eqb (fst p) m)), map_map. cbn [snd PhdProofs.mk].
  rewrite (qsum_filter2 (fun p => NW (fst p) (snd p))) by (intros; apply ob_false; assumption).
  unfold upto. cbn [seq map]. rewrite app_nil_r, qsum_prod. cbn [fst snd].
  transitivity (qsum (map (fun j => if Nat.eqb j m then qsum (map (NW j) (seq 0 nZ)) else 0) (seq 0 nM))).
  - apply qsum_ext. intros j Hj. destruct (Nat.eqb j m); [reflexivity|]. apply qsum_zero. reflexivity.
  - apply (qsum_at (fun j => qsum (map (NW j) (seq 0 nZ)))); [apply seq_NoDup|apply in_seq; lia].
Qed.

Lemma NW_sum : forall z, tot z <> 0 ->
  qsum (map (fun m => NW m z) (seq 0 nM)) = qsum (map (fun m => U m z) (seq 0 nM)) / tot z.
Proof.
  intros z Ht. unfold Qcdiv. rewrite Qcmult_comm, <- qsum_scale. apply qsum_ext. intros m _.
  unfold PhdProofs.NW. destruct (Qc_eq_dec (tot z) 0); [contradiction|]. unfold Qcdiv. apply Qcmult_comm.
Qed.

Lemma in_origin : forall m z, In (m, z) origin <->
  exists lm w, nth_error mix m = Some (lm, w) /\ (z < nZ)%nat /\ gated lm z /\ 0 < w.
Proof.
  intros m z. rewrite filter_In, in_upto. split.
  - intros [[[Hm Hz]|[_ Hz]] H]; [|lia]. apply ob_spec in H; [|assumption|assumption].
    exists (fst (nth m mix d)), (snd (nth m mix d)). rewrite <- surjective_pairing. split; [apply nth_error_nth'; exact Hm|tauto].
  - intros (lm & w & E & Hz & Hg & Hw). assert (Hm := nth_error_lt _ _ _ _ E). split; [left; lia|].
    apply ob_spec; [assumption|assumption|]. rewrite (nth_error_nth mix m d E). auto.
Qed.

Lemma nodup_upto : NoDup (upto nZ nM 0).
Proof.
  unfold upto. cbn [seq map]. rewrite app_nil_r. generalize (seq_NoDup nM 0). generalize (seq 0 nM). intros l Hl.
  induction Hl as [|x l Hx Hl IH]; cbn [list_prod]; [constructor|].
  apply Verif.MurtyProofs.NoDup_app_intro; [|exact IH|].
  - apply FinFun.Injective_map_NoDup; [intros a b E; congruence|apply seq_NoDup].
  - intros [a b] H1 H2. apply in_map_iff in H1. destruct H1 as (c & E & _). injection E as <- <-.
    apply in_prod_iff in H2. tauto.
Qed.

Lemma uz_spec : forall z, (z < nZ)%nat -> (uz T probDet correct clutter gateMD mix d z = true <-> forall m, ~ In (m, z) origin).
Proof.
  intros z Hz. unfold uz. rewrite negb_true_iff. split.
  - intros H m Hm. apply filter_In in Hm. destruct Hm as [Hi Ho]. apply in_upto in Hi. destruct Hi as [[Hm _]|[_ Hi]]; [|lia].
    assert (E : existsb (fun i => if Qc_eq_dec (NW i z) 0 then false else true) (seq 0 nM) = true); [|congruence].
    apply existsb_exists. exists m. split; [apply in_seq; lia|]. destruct (Qc_eq_dec (NW m z) 0) as [E|]; [|reflexivity].
    unfold PhdProofs.ob in Ho. cbn [fst snd] in Ho. apply andb_true_iff in Ho. destruct Ho as [_ Ho]. apply Qcltb_true in Ho.
    rewrite E in Ho. exfalso. exact (Qclt_not_eq _ _ Ho eq_refl).
  - intros H. destruct (existsb (fun i => if Qc_eq_dec (NW i z) 0 then false else true) (seq 0 nM)) eqn:E; [|reflexivity].
    apply existsb_exists in E. destruct E as (m & Hm & E). apply in_seq in Hm. destruct (Qc_eq_dec (NW m z) 0) as [E0|E0]; [discriminate|].
    exfalso. assert (Hi : In (m, z) (upto nZ nM 0)) by (apply in_upto; left; lia).
    apply (H m). apply filter_In. split; [exact Hi|]. destruct (ob (m, z)) eqn:Eo; [reflexivity|].
    apply (ob_false (m, z) Hi) in Eo. contradiction.
Qed.

Lemma weight_bounds : forall s c : Qc, 0 <= s -> 0 <= c -> c + s <> 0 -> 0 <= s / (c + s) <= 1 /\ (s / (c + s) < 1 <-> 0 < c).
Proof.
  intros s c Hs Hc H. assert (Hp : 0 < c + s).
  { assert (H1 : 0 <= c + s) by qclra. apply Qcle_lt_or_eq in H1. destruct H1 as [H1|H1]; [exact H1|congruence]. }
  split; [split|].
  - rewrite Qcle_div by exact Hp. rewrite Qcmult_0_l. exact Hs.
  - rewrite Qcdiv_le by exact Hp. qclra.
  - rewrite Qcdiv_lt by exact Hp. split; intros; qclra.
Qed.
End Mix.

Notation conserved := (conserved T probDet correct clutter gateMD birthW).

Theorem update_conserves : forall cluster t0 mix nZ,
  (forall lm w, In (lm, w) mix -> 0 <= w /\ 0 <= fst (probDet lm) /\ forall z, (z < nZ)%nat -> 0 <= lik lm z) ->
  (forall z, (z < nZ)%nat -> 0 <= clutter z) ->
  exists r origin, update cluster t0 mix nZ = Val r /\ conserved mix nZ (rmix T r) (runused T r) origin.
Proof.
  intros cluster t0 mix nZ H HC. destruct mix as [|d mix0] eqn:Em.
  - exists (RES T t0 [] (seq 0 nZ) 0 1 0 0), []. split; [reflexivity|]. unfold conserved. cbn [rmix runused length].
    split; [constructor|]. split; [reflexivity|]. split; [|split; [|split; [|split; [|split]]]].
    + intros m z. split; [intros []|]. intros (lm & w & E & _). destruct m; discriminate.
    + intros k m z lm w s E. destruct k; discriminate.
    + intros z s Hz (vs & HF & ->). inversion HF. subst vs. cbn [skipn]. unfold created. cbn [combine filter map].
      change (qsum []) with 0. split; [|split; [reflexivity|split; qclra]]. intros Hne. rewrite qdiv_0. split; [reflexivity|].
      pose proof (HC z Hz) as Hc. split; intros _; [|qclra].
      apply Qcle_lt_or_eq in Hc. destruct Hc as [Hc|Hc]; [exact Hc|]. exfalso. apply Hne. rewrite <- Hc. reflexivity.
    + intros z. rewrite in_seq. split; [intros ?; split; [lia|intros m []]|lia].
    + pose proof (sorted_filter_seq (fun _ => true) nZ 0) as S0.
      replace (filter (fun _ => true) (seq 0 nZ)) with (seq 0 nZ) in S0; [exact S0|].
      clear. generalize (seq 0 nZ). induction l as [|x l IH]; [reflexivity|]. cbn [filter]. rewrite <- IH. reflexivity.
    + intros m lm w E. destruct m; discriminate.
  - assert (HnM : length mix <> 0%nat) by (rewrite Em; discriminate). rewrite <- Em in *. clear Em mix0.
    assert (HW : forall lm w, In (lm, w) mix -> 0 <= w) by (intros lm w Hi; apply (H lm w Hi)).
    assert (HP : forall lm w, In (lm, w) mix -> 0 <= fst (probDet lm)) by (intros lm w Hi; apply (H lm w Hi)).
    assert (HL : forall lm w z, In (lm, w) mix -> (z < nZ)%nat -> 0 <= lik lm z) by (intros lm w z Hi; apply (H lm w Hi)).
    destruct (update_exact T probDet correct clutter gateMD birthW tiny expf mix d nZ t0 HnM cluster)
      as (t & mx & Eu & Lx & Hold & Hsk & _).
    eexists. exists (filter (ob T probDet correct clutter gateMD mix d) (upto nZ (length mix) 0)).
    split; [exact Eu|]. unfold conserved. cbn [rmix runused].
    split; [apply NoDup_filter; apply (nodup_upto mix); exact d|]. split; [exact Lx|].
    split; [intros m z; apply in_origin; assumption|].
    rewrite Hsk. split; [|split; [|split; [|split]]].
    + intros k m z lm w s Ek Em Hs. assert (Hs' := support_U mix d nZ z s Hs).
      assert (Hmz := nth_error_In _ _ Ek). assert (Ho := Hmz). apply in_origin in Ho; try assumption.
      destruct Ho as (lm2 & w2 & Em2 & Hz & Hg & Hw2). rewrite Em in Em2. injection Em2 as <- <-.
      assert (Hm := nth_error_lt _ _ _ _ Em).
      assert (En : nth m mix d = (lm, w)) by (apply nth_error_nth; exact Em).
      assert (HUm : U T probDet correct gateMD mix d m z = pd lm * w * lik lm z).
      { unfold U. rewrite (proj2 (gb_spec mix d nZ m z)); rewrite En; [reflexivity|exact Hg]. }
      assert (HUp : 0 < U T probDet correct gateMD mix d m z).
      { rewrite HUm. destruct Hg as (G1 & G2 & _). pose proof (nth_error_In _ _ Em) as Hi.
        apply qmul_pos3; [exact (pd_nonneg mix HP _ _ Hi)|exact (HW _ _ Hi)|exact (HL _ _ z Hi Hz)|tauto]. }
      assert (Ht : 0 < tot T probDet correct clutter gateMD mix d z) by (apply (tot_pos mix d nZ HW HP HL HC m); assumption).
      assert (Et : clutter z + s = tot T probDet correct clutter gateMD mix d z) by (rewrite Hs'; reflexivity).
      rewrite Et. split; [apply Qcpos_neq; exact Ht|].
      rewrite <- nth_error_skipn, Hsk, nth_error_map, Ek. cbn [option_map]. unfold mk. cbn [fst snd]. rewrite En. cbn [fst].
      unfold NW. destruct (Qc_eq_dec (tot T probDet correct clutter gateMD mix d z) 0) as [E|_]; [rewrite E in Ht; exfalso; exact (Qclt_not_eq _ _ Ht eq_refl)|].
      rewrite HUm. reflexivity.
    + intros z s Hz Hs. cbv zeta. assert (Hs' := support_U mix d nZ z s Hs).
      rewrite (created_val mix d nZ HW HP HL HC z Hz).
      assert (Et : clutter z + s = tot T probDet correct clutter gateMD mix d z) by (rewrite Hs'; reflexivity).
      assert (Hsn : 0 <= s) by (rewrite Hs'; apply (supp_nonneg mix d nZ HW HP HL z Hz)).
      pose proof (HC z Hz) as Hc.
      assert (Nz : clutter z + s <> 0 -> qsum (map (fun m => NW T probDet correct clutter gateMD mix d m z) (seq 0 (length mix))) = s / (clutter z + s)).
      { intros Hne. rewrite Et in *. rewrite NW_sum by exact Hne. rewrite Hs'. reflexivity. }
      assert (Ze : clutter z + s = 0 -> qsum (map (fun m => NW T probDet correct clutter gateMD mix d m z) (seq 0 (length mix))) = 0).
      { intros E. apply qsum_zero. intros m Hm. apply in_seq in Hm. apply (NW_zero mix d nZ HW HP HL); try assumption; [lia|].
        intros Hp. assert (Ht : 0 < tot T probDet correct clutter gateMD mix d z) by (apply (tot_pos mix d nZ HW HP HL HC m); try assumption; lia).
        rewrite <- Et, E in Ht. exact (Qclt_not_eq _ _ Ht eq_refl). }
      split; [|split; [exact Ze|]].
      * intros Hne. rewrite (Nz Hne). split; [reflexivity|]. apply weight_bounds; assumption.
      * destruct (Qc_eq_dec (clutter z + s) 0) as [E|E]; [rewrite (Ze E); split; qclra|].
        rewrite (Nz E). apply weight_bounds; assumption.
    + intros z. rewrite filter_In, in_seq. split.
      * intros [Hz Hu]. split; [lia|]. apply (uz_spec mix d nZ HW HP HL HC); [lia|exact Hu].
      * intros [Hz Hu]. split; [lia|]. apply (uz_spec mix d nZ HW HP HL HC); assumption.
    + apply sorted_filter_seq.
    + intros m lm w Em. assert (Hm := nth_error_lt _ _ _ _ Em).
      assert (En : nth m mix d = (lm, w)) by (apply nth_error_nth; exact Em).
      exists (W T probDet correct clutter gateMD birthW mix d nZ m). split; [rewrite Hold by exact Hm; rewrite En; reflexivity|].
      unfold W. rewrite En. cbn [fst snd]. unfold pdet. split; [|split].
      * intros ->. cbn [andb]. reflexivity.
      * intros -> Hle. cbn [andb]. rewrite (proj2 (Qcltb_false birthW w) Hle). ring.
      * intros -> Hlt. cbn [andb]. rewrite (proj2 (Qcltb_true birthW w) Hlt). cbv zeta.
        rewrite (created_by_val mix d nZ HW HP HL HC m Hm).
        set (q := qsum (map (NW T probDet correct clutter gateMD mix d m) (seq 0 nZ))).
        replace (1 * w - q) with (w - q) by ring. replace ((1 - 1) * w + (w - q)) with (w - q) by ring.
        replace ((1 - 1) * w) with 0 by ring. unfold qmin. split; intros Hq.
        -- destruct (Qcltb 0 (w - q)) eqn:E1.
           ++ destruct (Qcltb 1 (w - q)) eqn:E2; destruct (Qcleb_spec 1 (w - q)) as [E3|E3]; try reflexivity.
              ** apply Qcltb_true in E2. exfalso. apply E3. qclra.
              ** apply Qcltb_false in E2. apply Qcle_antisym; assumption.
           ++ apply Qcltb_false in E1. assert (E : w - q = 0) by (apply Qcle_antisym; assumption). rewrite E. reflexivity.
        -- rewrite (proj2 (Qcltb_false 0 (w - q)) Hq). reflexivity.
Qed.

(** Weights stay non-negative. *)
Theorem update_nonneg : forall cluster t0 mix nZ,
  (forall lm w, In (lm, w) mix -> 0 <= w /\ 0 <= fst (probDet lm) <= 1 /\ forall z, (z < nZ)%nat -> 0 <= lik lm z) ->
  (forall z, (z < nZ)%nat -> 0 <= clutter z) ->
  exists r, update cluster t0 mix nZ = Val r /\ forall lm w, In (lm, w) (rmix T r) -> 0 <= w.
Proof.
  intros cluster t0 mix nZ H HC.
  destruct (update_conserves cluster t0 mix nZ) as (r & origin & Er & _ & Hlen & Ho & Hn & _ & _ & _ & Hold).
  { intros lm w Hi. destruct (H lm w Hi) as (A & [B _] & C). auto. }
  { exact HC. }
  exists r. split; [exact Er|]. intros lm w Hi. apply In_nth_error in Hi. destruct Hi as (i & Ei).
  destruct (Nat.lt_ge_cases i (length mix)) as [Hlt|Hge].
  - destruct (nth_error_ex _ mix i Hlt) as ([lm0 w0] & E0). destruct (Hold i lm0 w0 E0) as (w' & Ew & H1 & H2 & H3).
    rewrite Ei in Ew. injection Ew as <- <-. destruct (H lm w0 (nth_error_In _ _ E0)) as (A & [B1 B2] & _).
    destruct (snd (probDet lm)).
    + destruct (Qclt_le_dec birthW w0) as [L|L]; [|rewrite (H2 eq_refl L); apply Qcle_refl].
      specialize (H3 eq_refl L). cbv zeta in H3.
      set (q := w0 - qsum (created_by T origin (skipn (length mix) (rmix T r)) i)) in *. destruct H3 as [H3 H4].
      destruct (Qclt_le_dec q 0) as [Q|Q].
      * rewrite H4; [apply Qcle_refl|]. apply Qclt_le_weak. exact Q.
      * rewrite (H3 Q). unfold qmin. destruct (Qcleb 1 q); [qclra|exact Q].
    + rewrite (H1 eq_refl). apply qmul_nonneg; [qclra|exact A].
  - assert (Hk : (i - length mix < length origin)%nat) by (apply nth_error_lt in Ei; lia).
    destruct (nth_error_ex _ origin _ Hk) as ([m z] & Ek). pose proof (nth_error_In _ _ Ek) as Hmz. apply Ho in Hmz.
    destruct Hmz as (lm0 & w0 & E0 & Hz & Hg & Hw0). pose proof (nth_error_In _ _ E0) as Hi0.
    destruct (H lm0 w0 Hi0) as (A & [B1 B2] & C).
    destruct mix as [|d mix0] eqn:Em; [destruct m; discriminate|]. rewrite <- Em in *.
    pose proof (support_ex mix d nZ z) as Hs.
    destruct (Hn _ m z lm0 w0 _ Ek E0 Hs) as [Hne En].
    replace (length mix + (i - length mix))%nat with i in En by lia. rewrite Ei in En. injection En as -> ->.
    assert (P : 0 <= pd lm0) by (unfold pdet; destruct (snd (probDet lm0)); [qclra|exact B1]).
    pose proof (qmul_nonneg _ _ (qmul_nonneg _ _ P A) (C z Hz)) as Hnum.
    assert (Hsn : 0 <= qsum (map (fun m => U T probDet correct gateMD mix d m z) (seq 0 (length mix)))).
    { apply (supp_nonneg mix d nZ); try assumption; [intros l v Hi; apply (H l v Hi)|intros l v Hi; destruct (H l v Hi) as (_ & [? _] & _); assumption|].
      intros l v j Hi Hj. destruct (H l v Hi) as (_ & _ & K). apply K. exact Hj. }
    pose proof (HC z Hz) as Hc.
    assert (Hp : 0 < clutter z + qsum (map (fun m => U T probDet correct gateMD mix d m z) (seq 0 (length mix)))).
    { destruct (Qcle_lt_or_eq _ _ Hc) as [Hc1|Hc1]; [qclra|].
      destruct (Qcle_lt_or_eq _ _ Hsn) as [Hsn1|Hsn1]; [qclra|]. exfalso. apply Hne. rewrite <- Hc1, <- Hsn1. reflexivity. }
    rewrite Qcle_div by exact Hp. rewrite Qcmult_0_l. exact Hnum.
Qed.

(** Table contents and shape before the update do not matter. *)
Theorem update_table_free : forall cluster t0 t0' mix nZ, exists r r',
  update cluster t0 mix nZ = Val r /\ update cluster t0' mix nZ = Val r' /\
  rmix T r = rmix T r' /\ runused T r = runused T r' /\ rfov T r = rfov T r' /\ rweight T r = rweight T r' /\
  rnew T r = rnew T r' /\ rhanded T r = rhanded T r'.
Proof.
  intros cluster t0 t0' mix nZ. destruct (Nat.eq_dec (length mix) 0) as [E0|HnM].
  - destruct mix; [|discriminate]. do 2 eexists. repeat (split; [reflexivity|]). reflexivity.
  - destruct mix as [|d mix0] eqn:Em; [contradiction|]. rewrite <- Em in *. clear Em mix0.
    destruct (update_exact T probDet correct clutter gateMD birthW tiny expf mix d nZ t0 HnM cluster)
      as (t & mx & Eu & Lx & Hold & Hsk & _).
    destruct (update_exact T probDet correct clutter gateMD birthW tiny expf mix d nZ t0' HnM cluster)
      as (t' & mx' & Eu' & Lx' & Hold' & Hsk' & _).
    do 2 eexists. split; [exact Eu|]. split; [exact Eu'|]. cbn [rmix runused rfov rweight rnew rhanded].
    split; [|repeat (split; [reflexivity|]); reflexivity].
    apply list_ext. intros i. destruct (Nat.lt_ge_cases i (length mix)) as [H|H].
    + rewrite Hold, Hold' by exact H. reflexivity.
    + replace i with (length mix + (i - length mix))%nat by lia. rewrite <- !nth_error_skipn, Hsk, Hsk'. reflexivity.
Qed.

Lemma filter_len_imp : forall {X} (P Q : X -> bool) l, (forall x, Q x = true -> P x = true) ->
  (length (filter Q l) <= length (filter P l))%nat /\
  (length (filter P l) = length (filter Q l) <-> forall x, In x l -> P x = true -> Q x = true).
Proof.
  intros X P Q l H. induction l as [|x l [IH1 IH2]]; cbn [filter]; [split; [lia|split; [intros _ x []|reflexivity]]|].
  destruct (Q x) eqn:EQ; [rewrite (H x EQ); cbn [length]|destruct (P x) eqn:EP; cbn [length]].
  - split; [lia|]. split.
    + intros E y [<-|Hy] Py; [exact EQ|]. apply IH2; [lia|exact Hy|exact Py].
    + intros K. f_equal. apply IH2. intros y Hy. apply K. right. exact Hy.
  - split; [lia|]. split; [lia|]. intros K. rewrite (K x (or_introl eq_refl) EP) in EQ. discriminate.
  - split; [exact IH1|]. rewrite IH2. split.
    + intros K y [<-|Hy] Py; [congruence|]. apply K; assumption.
    + intros K y Hy. apply K. right. exact Hy.
Qed.

Theorem update_ownership : forall cluster t0 mix nZ,
  (forall lm w, In (lm, w) mix -> 0 <= w /\ 0 <= fst (probDet lm) /\ forall z, (z < nZ)%nat -> 0 <= likelihood T correct lm z) ->
  (forall z, (z < nZ)%nat -> 0 <= clutter z) ->
  exists r, updateMap T probDet correct clutter gateMD birthW tiny expf cluster t0 mix nZ = Val r /\
  length (rmix T r) = (length mix + rhanded T r)%nat /\ (rhanded T r <= rnew T r)%nat /\
  (rnew T r = rhanded T r <-> forall lm w z, In (lm, w) mix -> (z < nZ)%nat -> gated lm z -> 0 < w) /\
  (forall m z lm w, nth_error mix m = Some (lm, w) -> (z < nZ)%nat ->
     (mT T (rtb T r) m z <> None <-> gated lm z /\ ~ 0 < w)).
Proof.
  intros cluster t0 mix nZ H HC. destruct mix as [|d mix0] eqn:Em.
  - eexists. split; [reflexivity|]. cbn. split; [reflexivity|]. split; [lia|]. split; [split; [intros _ lm w z []|reflexivity]|].
    intros [|m] z lm w E; discriminate.
  - assert (HnM : length mix <> 0%nat) by (rewrite Em; discriminate). rewrite <- Em in *. clear Em mix0.
    destruct (update_exact T probDet correct clutter gateMD birthW tiny expf mix d nZ t0 HnM cluster)
      as (t & mx & Eu & Lx & _ & _ & _ & _ & _ & _ & Hmt).
    eexists. split; [exact Eu|]. cbn [rmix rhanded rnew rtb]. split; [exact Lx|].
    destruct (filter_len_imp (fun p => gb T probDet correct gateMD mix d (fst p) (snd p))
      (ob T probDet correct clutter gateMD mix d) (upto nZ (length mix) 0)) as [K1 K2].
    { intros x E. unfold ob in E. apply andb_true_iff in E. apply E. }
    split; [exact K1|]. rewrite K2.
    assert (HW : forall lm w, In (lm, w) mix -> 0 <= w) by (intros lm w Hi; apply (H lm w Hi)).
    assert (HP : forall lm w, In (lm, w) mix -> 0 <= fst (probDet lm)) by (intros lm w Hi; apply (H lm w Hi)).
    assert (HL : forall lm w z, In (lm, w) mix -> (z < nZ)%nat -> 0 <= likelihood T correct lm z) by (intros lm w z Hi; apply (H lm w Hi)).
    split; [split|].
    + intros K lm w z Hi Hz Hg. apply In_nth_error in Hi. destruct Hi as (m & Emm).
      assert (Hm := nth_error_lt _ _ _ _ Emm). assert (En : nth m mix d = (lm, w)) by (apply nth_error_nth; exact Emm).
      assert (Ho : ob T probDet correct clutter gateMD mix d (m, z) = true).
      { apply K; [apply in_upto; left; lia|]. cbn [fst snd]. apply (gb_spec mix d nZ). rewrite En. exact Hg. }
      apply (ob_spec mix d nZ HW HP HL HC m z Hm Hz) in Ho. rewrite En in Ho. apply Ho.
    + intros K [m z] Hi Hg. apply in_upto in Hi. destruct Hi as [[Hm Hz]|[_ Hz]]; [|lia]. cbn [fst snd] in Hg.
      apply (gb_spec mix d nZ) in Hg.
      apply (ob_spec mix d nZ HW HP HL HC m z Hm Hz). split; [exact Hg|].
      apply (K (fst (nth m mix d)) _ z); [rewrite <- surjective_pairing; apply nth_In; exact Hm|exact Hz|exact Hg].
    + intros m z lm w E Hz. assert (Hm := nth_error_lt _ _ _ _ E). assert (En : nth m mix d = (lm, w)) by (apply nth_error_nth; exact E).
      rewrite (Hmt m z Hm Hz). pose proof (ob_spec mix d nZ HW HP HL HC m z Hm Hz) as Ho. rewrite En in Ho. cbn [fst snd] in Ho.
      pose proof (gb_spec mix d nZ m z) as Hg. rewrite En in Hg. cbn [fst] in Hg. unfold G.
      destruct (ob T probDet correct clutter gateMD mix d (m, z)).
      * split; [congruence|]. intros [_ K]. exfalso. apply K. apply Ho. reflexivity.
      * destruct (gb T probDet correct gateMD mix d m z).
        -- split; [|discriminate]. intros _. split; [apply Hg; reflexivity|]. intros Hw. assert (false = true); [|discriminate].
           apply Ho. split; [apply Hg; reflexivity|exact Hw].
        -- split; [congruence|]. intros [K _]. apply Hg in K. discriminate.
Qed.
End Conserve.

(** ----- sequences of updates ----- *)
Lemma updates_run : forall T gateMD birthW tiny expf jobs t0,
  exists t rs, updates T gateMD birthW tiny expf t0 jobs = Val (t, rs) /\ length rs = length jobs /\
  (trows T t0 <= trows T t)%nat /\ (tcols T t0 <= tcols T t)%nat /\
  forall k j, nth_error jobs k = Some j -> length (jmix T j) <> 0%nat ->
    (length (jmix T j) <= trows T t)%nat /\ (jnz T j <= tcols T t)%nat.
Proof.
  intros T gateMD birthW tiny expf. induction jobs as [|j jobs IH]; intros t0; cbn [updates].
  - exists t0, []. repeat split; try lia; destruct k; discriminate.
  - assert (E : exists r, updateMap T (jpd T j) (jcorrect T j) (jclutter T j) gateMD birthW tiny expf (jcluster T j) t0 (jmix T j) (jnz T j) = Val r /\
      (trows T t0 <= trows T (rtb T r))%nat /\ (tcols T t0 <= tcols T (rtb T r))%nat /\
      (length (jmix T j) <> 0%nat -> (length (jmix T j) <= trows T (rtb T r))%nat /\ (jnz T j <= tcols T (rtb T r))%nat)).
    { destruct (jmix T j) as [|d mix0] eqn:Em.
      - eexists. split; [reflexivity|]. cbn. repeat split; lia.
      - assert (HnM : length (jmix T j) <> 0%nat) by (rewrite Em; discriminate). rewrite <- Em in *. clear Em mix0.
        destruct (update_exact T (jpd T j) (jcorrect T j) (jclutter T j) gateMD birthW tiny expf (jmix T j) d (jnz T j) t0 HnM (jcluster T j))
          as (t & mx & Eu & _ & _ & _ & B1 & B2 & B3 & B4 & _).
        eexists. split; [exact Eu|]. cbn [rtb]. auto. }
    destruct E as (r & Er & R1 & R2 & R3). rewrite Er. cbn [obind].
    destruct (IH (rtb T r)) as (t & rs & Et & L & S1 & S2 & S3). rewrite Et. cbn [obind fst snd].
    exists t, (r :: rs). split; [reflexivity|]. split; [cbn [length]; lia|]. split; [lia|]. split; [lia|].
    intros [|k] j' Ej Hne; cbn [nth_error] in Ej.
    + injection Ej as <-. destruct (R3 Hne). lia.
    + apply (S3 k j' Ej Hne).
Qed.
