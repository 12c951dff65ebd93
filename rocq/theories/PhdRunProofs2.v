(** The expected number of landmarks over one map update, and one particle of the PHD filter. *)
From Coq Require Import ZArith QArith Qcanon List Bool Arith Lia Permutation Sorted.
From Verif Require Import Base ListUtil QcLra Loop PermanentSpec PermanentProofs RfsModel RfsSpec RfsProofs RfsProofs2 RfsProofs6
  PhdModel PhdSpec PhdProofs2 WeighModel WeighSpec WeighProofs WeighProofs2 ParticleModel RbRunModel BirthModel PhdRunModel PhdRunSpec PhdRunProofs.
Import ListNotations.
Local Open Scope Qc_scope.

Lemma qsum_add : forall {X} (f g : X -> Qc) l, qsum (map (fun x => f x + g x) l) = qsum (map f l) + qsum (map g l).
Proof. intros X f g. induction l as [|x l IH]; [reflexivity|]. cbn [map]. rewrite !qsum_cons, IH. ring. Qed.

Lemma by_group : forall {X} (k : X -> nat) (v : X -> Qc) n l, (forall x, In x l -> (k x < n)%nat) ->
  qsum (map v l) = qsum (map (fun z => qsum (map v (filter (fun x => Nat.eqb (k x) z) l))) (seq 0 n)).
Proof.
  intros X k v n. induction l as [|x l IH]; intros H.
  - cbn [filter map]. rewrite qsum_nil. generalize (seq 0 n). induction l as [|z l IH]; [reflexivity|]. cbn [map]. rewrite qsum_cons, <- IH. reflexivity.
  - cbn [map]. rewrite qsum_cons, IH by (intros y Hy; apply H; right; exact Hy).
    rewrite <- (qsum_at (fun _ => v x) (k x) (seq 0 n)); [|apply seq_NoDup|apply in_seq; assert (K := H x (or_introl eq_refl)); lia].
    rewrite <- qsum_add. f_equal. apply map_ext. intros z. cbn [filter]. rewrite (Nat.eqb_sym z (k x)).
    destruct (Nat.eqb (k x) z); cbn [map]; rewrite ?qsum_cons; ring.
Qed.

Lemma heads_le : forall {T} (a b : list (T * Qc)), (forall i lm w, nth_error a i = Some (lm, w) -> exists w', nth_error b i = Some (lm, w') /\ w' <= w) ->
  qsum (map snd (firstn (length a) b)) <= qsum (map snd a).
Proof.
  intros T. induction a as [|[lm w] a IH]; intros b H; [apply Qcle_refl|]. destruct (H 0%nat lm w eq_refl) as (w' & E & Hle).
  destruct b as [|[l0 w0] b]; [discriminate|]. cbn in E. injection E as -> ->. cbn [length firstn map snd]. rewrite !qsum_cons.
  assert (A := IH b (fun i => H (S i))). qclra.
Qed.

Lemma ones : forall f n, (forall z, (z < n)%nat -> f z <= 1) -> qsum (map f (seq 0 n)) <= QcN n.
Proof.
  intros f n H. replace (QcN n) with (qsum (map (fun _ => 1) (seq 0 n))).
  - apply LmbProofs2.qsum_le. intros z Hz. apply in_seq in Hz. apply H. lia.
  - clear H. generalize 0%nat. induction n as [|n IH]; intros k; [reflexivity|]. cbn [seq map]. rewrite qsum_cons, IH, QcN_S. ring.
Qed.

Section Mass.
Variable T : Type.
Variable probDet : T -> Qc * bool.
Variable correct : T -> nat -> Qc * Qc * T.
Variable clutter : nat -> Qc.
Variables gateMD birthW tiny : Qc.
Variable expf : Qc -> Qc.
Notation update := (updateMap T probDet correct clutter gateMD birthW tiny expf).

Theorem update_mass : forall cluster t0 mix nZ,
  (forall lm w, In (lm, w) mix -> 0 <= w /\ 0 <= fst (probDet lm) <= 1 /\ forall z, (z < nZ)%nat -> 0 <= likelihood T correct lm z) ->
  (forall z, (z < nZ)%nat -> 0 <= clutter z) -> exists r, update cluster t0 mix nZ = Val r /\
  (forall lm w, In (lm, w) (rmix T r) -> 0 <= w) /\ mass T (rmix T r) <= mass T mix + QcN nZ /\
  (forall z, In z (runused T r) -> (z < nZ)%nat) /\ (length (runused T r) <= nZ)%nat.
Proof.
  intros cluster t0 mix nZ H HC.
  destruct (update_nonneg T probDet correct clutter gateMD birthW tiny expf cluster t0 mix nZ H HC) as (r & Er & Hn).
  destruct (update_conserves T probDet correct clutter gateMD birthW tiny expf cluster t0 mix nZ) as (r' & origin & Er' & _ & Hlen & Ho & _ & Hc & Hu & Hs & Hold).
  { intros lm w Hi. destruct (H lm w Hi) as (A & [B _] & C). auto. }
  { exact HC. }
  rewrite Er in Er'. injection Er' as <-. exists r. split; [exact Er|]. split; [exact Hn|].
  assert (Hlt : forall z, In z (runused T r) -> (z < nZ)%nat) by (intros z Hz; apply Hu in Hz; tauto).
  split; [|split; [exact Hlt|apply sorted_bound; assumption]].
  set (new := rmix T r) in *. set (gs := skipn (length mix) new) in *.
  assert (Lg : length gs = length origin) by (unfold gs; rewrite skipn_length; lia).
  unfold mass. rewrite <- (firstn_skipn (length mix) new), map_app, qsum_app. fold gs.
  assert (A : qsum (map snd (firstn (length mix) new)) <= qsum (map snd mix)).
  { apply heads_le. intros i lm w Ei. destruct (Hold i lm w Ei) as (w' & Ew & H1 & H2 & H3). exists w'. split; [exact Ew|].
    destruct (H lm w (nth_error_In _ _ Ei)) as (W0 & [P0 P1] & _). destruct (snd (probDet lm)) eqn:Ec.
    - destruct (Qclt_le_dec birthW w) as [K|K]; [|rewrite (H2 eq_refl K); exact W0].
      assert (B := H3 eq_refl K). cbn zeta in B. destruct B as [B1 B2].
      set (lost := w - qsum (created_by T origin gs i)) in *.
      assert (Cn : 0 <= qsum (created_by T origin gs i)).
      { unfold created_by. apply qsum_map_nonneg. intros [o [l v]] Hx. apply filter_In in Hx. destruct Hx as [Hx _]. apply in_combine_r in Hx.
        cbn [snd]. apply (Hn l). unfold gs in Hx. fold new. rewrite <- (firstn_skipn (length mix) new). apply in_or_app. right. exact Hx. }
      destruct (Qclt_le_dec lost 0) as [J|J].
      + rewrite (B2 (Qclt_le_weak _ _ J)). exact W0.
      + rewrite (B1 J). unfold qmin. destruct (Qcleb 1 lost) eqn:Eq.
        * apply Qcleb_true in Eq. unfold lost in *. qclra.
        * unfold lost. qclra.
    - rewrite (H1 eq_refl). assert (B := qmul_nonneg _ _ P0 W0). replace ((1 - fst (probDet lm)) * w) with (w - fst (probDet lm) * w) by ring. qclra. }
  assert (B : qsum (map snd gs) <= QcN nZ).
  { replace (map snd gs) with (map (fun og : (nat * nat) * (T * Qc) => snd (snd og)) (combine origin gs)).
    - rewrite (by_group (fun og => snd (fst og)) (fun og => snd (snd og)) nZ).
      + apply ones. intros z Hz. change (qsum (created T origin gs z) <= 1).
        assert (Sx : exists v, support_of T probDet correct gateMD mix z v).
        { clear -clutter expf. destruct mix as [|d mix']; [exists 0, []; split; [constructor|reflexivity]|].
          eexists. exact (support_ex T probDet correct clutter gateMD expf (d :: mix') d 0%nat z). }
        destruct Sx as (v & Sx). apply (Hc z v Hz Sx).
      + intros [[m z] g] Hx. apply in_combine_l in Hx. cbn [fst snd]. apply Ho in Hx. destruct Hx as (lm & w & _ & Hz & _). exact Hz.
    - clearbody gs. clear - Lg. revert gs Lg. induction origin as [|o origin IH]; intros [|g gs] L; try discriminate; [reflexivity|].
      cbn [combine map]. cbn in L. rewrite IH by lia. reflexivity. }
  qclra.
Qed.
End Mass.

Lemma prune_mass : forall {T} t (mix : list (T * Qc)), (forall lm w, In (lm, w) mix -> 0 <= w) ->
  (forall lm w, In (lm, w) (hprune t mix) -> 0 <= w) /\ mass T (hprune t mix) <= mass T mix.
Proof.
  intros T t mix H. split.
  - intros lm w Hi. apply filter_In in Hi. apply (H lm). tauto.
  - unfold mass, hprune. induction mix as [|[lm w] mix IH]; [apply Qcle_refl|]. cbn [filter].
    assert (A := IH (fun l v Hi => H l v (or_intror Hi))). assert (W := H lm w (or_introl eq_refl)).
    destruct (negb (Qcltb (snd (lm, w)) t)); cbn [map snd]; rewrite ?qsum_cons; qclra.
Qed.

Lemma mass_perm : forall T (a b : list (T * Qc)), Permutation a b -> mass T a = mass T b.
Proof. intros T a b H. unfold mass. apply qsum_perm. apply Permutation_map. exact H. Qed.
